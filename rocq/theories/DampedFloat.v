(** Runs of the adapters of the crate in f64 with damping: the points, as
    floating-point expressions, and what a contracting run promises. Proof
    file, no definition of the model. *)
From Coq Require Import Reals Lra Lia ZArith List Bool.
From Flocq Require Import Core BinarySingleNaN.
From Verif Require Import Base Num F64 Linalg Residuals Iteratives UserModel Jacobian Solver
  F64Facts F64Arith LimitFacts RNum ExactFacts LocalFacts PropsNorm PropsAccuracy PropsFD PropsStep PropsSlope
  Samples FloatRun PropsFloat.
Import ListNotations.
Open Scope R_scope.

(** Half way from [z] to [y], as computed. *)
Definition halfway64 (z y : vec f64) : vec f64 := map2 damped1 z y.

Lemma halfway_guess (z y : vec f64) : length z = length y -> damped_guess z y = Ret (halfway64 z y).
Proof.
  intros L; unfold damped_guess, vadd; destruct factors as (-> & ->).
  unfold vscale; rewrite !map_length, L, Nat.eqb_refl; f_equal; unfold vadd_raw, halfway64; clear L.
  revert y; induction z as [|a z IH]; intros [|c y]; cbn [map map2]; [reflexivity..|].
  rewrite IH; reflexivity.
Qed.

Section Damped.
Context (func : vec f64 -> vec f64) (n : nat) (provided : user_model f64 -> bool)
  (get_jac : user_model f64 -> outcome (user_model f64 * result (jacobian_values f64) (model_error Empty_set Empty_set))).
Let M : Model f64 (user_model f64) Empty_set Empty_set :=
  mkModel um_problem_size um_set_iteratives um_inputs (um_evaluate func) um_get_residuals provided get_jac
    default_get_memory default_set_memory show_infallible show_infallible.

(** The point an iteration ends at, proposed [y] from [z]. *)
Definition kept_point (z y : vec f64) : vec f64 :=
  if ngtb (float_error func y) (float_error func z) then halfway64 z y else y.

Context (p : solver_parameters f64) (its : list (iterative f64)) (YD : sp_damping p = true).

Lemma damped_update rf z y :
  (sp_resolution_method p = NewtonRaphson \/
   sp_resolution_method p = QuasiNewton StationaryNewton /\ jm_approximated (rf_jacobian rf) = false) ->
  set_up n p its rf -> length z = n -> length y = n -> length (func z) = n -> length (func y) = n ->
  length (func (kept_point z y)) = n ->
  exists rf', update_model M rf (float_state func n z) y
      = Ret (rf', float_state func n (kept_point z y), Ok (map nabs (func (kept_point z y)))) /\
    set_up n p its rf' /\ rf_iter rf' = rf_iter rf /\ rf_jacobian rf' = rf_jacobian rf.
Proof.
  intros SM (S1 & S2 & S3 & S4 & S5) Dz Dy Lz Ly Lk; unfold update_model.
  unfold M at 1; rewrite (float_errors func n provided get_jac rf z) by assumption; cbn [bind].
  change (get_iteratives M (float_state func n z)) with z.
  change (evaluate M (set_iteratives M (float_state func n z) y)) with
    (@Ret (user_model f64 * result unit (model_error Empty_set Empty_set)) (float_state func n y, Ok tt)); cbn [bind].
  unfold finish_update; unfold M at 1; rewrite (float_errors func n provided get_jac (set_valid rf true) y) by assumption.
  cbn [bind]; unfold when_debug at 1; change (rf_debug (set_valid rf true)) with (rf_debug rf); rewrite S4; cbn [bind].
  change (rf_parameters (set_valid rf true)) with (rf_parameters rf); rewrite S1, YD.
  exists (set_valid rf true).
  split; [|split; [|split; reflexivity]; repeat split; assumption].
  assert (EN : damping M (set_valid rf true) (float_state func n y) (amax (map nabs (func z))) z y (map nabs (func y))
    = Ret (set_valid rf true, float_state func n (kept_point z y), map nabs (func (kept_point z y)))).
  { revert Lk; unfold damping, kept_point.
    change (amax (map nabs (func y))) with (float_error func y); change (amax (map nabs (func z))) with (float_error func z).
    destruct (ngtb (float_error func y) (float_error func z)); intros Lk; [|reflexivity].
    change (rf_parameters (set_valid rf true)) with (rf_parameters rf).
    change (rf_jacobian (set_valid rf true)) with (rf_jacobian rf); rewrite S1.
    replace (is_quasi_newton (sp_resolution_method p) && jm_approximated (rf_jacobian rf))%bool with false
      by (destruct SM as [-> | [-> ->]]; reflexivity).
    rewrite halfway_guess by congruence; cbn [bind].
    change (evaluate M (set_iteratives M (float_state func n y) (halfway64 z y))) with
      (@Ret (user_model f64 * result unit (model_error Empty_set Empty_set)) (float_state func n (halfway64 z y), Ok tt)).
    cbn [bind]; unfold M; rewrite (float_errors func n provided get_jac (set_valid rf true) (halfway64 z y)) by assumption.
    cbn [bind]; unfold when_debug; change (rf_debug (set_valid rf true)) with (rf_debug rf); rewrite S4; reflexivity. }
  rewrite EN; cbn [bind]; unfold store_steps; change (rf_parameters (set_valid rf true)) with (rf_parameters rf); rewrite S1.
  destruct SM as [-> | [-> _]]; reflexivity.
Qed.

Lemma damped_newton_step rf x A z H y : sp_resolution_method p = NewtonRaphson -> set_up n p its rf ->
  source func n provided get_jac its x A z -> lu_inverse A = Some H -> moves func n its H z y ->
  length z = n -> length y = n -> length (func y) = n -> length (func (kept_point z y)) = n ->
  exists rf', iteration M rf (float_state func n x)
      = Ret (rf', float_state func n (kept_point z y), Ok (map nabs (func (kept_point z y)))) /\
    set_up n p its rf' /\ rf_iter rf' = Datatypes.S (rf_iter rf).
Proof.
  intros EM (S1 & S2 & S3 & S4 & S5) SR EH MV Dz Dy Ly Lk; unfold iteration, compute_step.
  cbn [rf_parameters set_iter]; rewrite S1, EM; unfold compute_newton_raphson_step.
  set (rf0 := set_iter rf (Datatypes.S (rf_iter rf))).
  unfold M; rewrite (source_inverts func n provided get_jac its x A z H rf0 SR EH S2 S3); cbn [bind].
  set (rf1 := set_jacobian rf0 _).
  unfold when_debug; cbn [rf_debug rf1 set_jacobian rf0 set_iter]; rewrite S4; cbn [bind].
  rewrite (moves_next func n provided get_jac its H z y rf1 MV S2 S3 eq_refl); cbn [bind].
  destruct (damped_update rf1 z y (or_introl EM)) as (rf' & E & SU & E1 & _);
    [repeat split; assumption|assumption|assumption|apply MV|assumption|assumption|].
  exists rf'; split; [exact E|]; split; [exact SU|rewrite E1; reflexivity].
Qed.

Definition keeps (H : mat f64) (rf : rootfinder f64) : Prop :=
  jm_compute_at_next (rf_jacobian rf) = false /\ jm_inverse (rf_jacobian rf) = Some H /\
  jm_approximated (rf_jacobian rf) = false.

Lemma damped_first_step rf x A z H y : sp_resolution_method p = QuasiNewton StationaryNewton -> set_up n p its rf ->
  jm_compute_at_next (rf_jacobian rf) = true ->
  source func n provided get_jac its x A z -> lu_inverse A = Some H -> moves func n its H z y ->
  length z = n -> length y = n -> length (func y) = n -> length (func (kept_point z y)) = n ->
  exists rf', iteration M rf (float_state func n x)
      = Ret (rf', float_state func n (kept_point z y), Ok (map nabs (func (kept_point z y)))) /\
    set_up n p its rf' /\ rf_iter rf' = Datatypes.S (rf_iter rf) /\ keeps H rf'.
Proof.
  intros EM (S1 & S2 & S3 & S4 & S5) CN SR EH MV Dz Dy Ly Lk; unfold iteration, compute_step.
  cbn [rf_parameters set_iter]; rewrite S1, EM; unfold compute_quasi_newton_step, evaluate_jacobian_quasi_newton_step.
  set (rf0 := set_iter rf (Datatypes.S (rf_iter rf))); cbn [rf_jacobian rf0 set_iter]; rewrite CN.
  unfold M; rewrite (source_inverts func n provided get_jac its x A z H rf0 SR EH S2 S3); cbn [bind].
  set (rf1 := set_jacobian rf0 _).
  unfold when_debug; cbn [rf_debug rf1 set_jacobian rf0 set_iter]; rewrite S4; cbn [bind].
  rewrite (moves_next func n provided get_jac its H z y rf1 MV S2 S3 eq_refl); cbn [bind].
  destruct (damped_update rf1 z y (or_intror (conj EM eq_refl))) as (rf' & E & SU & E1 & E2);
    [repeat split; assumption|assumption|assumption|apply MV|assumption|assumption|].
  exists rf'; split; [exact E|]; split; [exact SU|]; unfold keeps; rewrite E1, E2; repeat split.
Qed.

Lemma damped_kept_step rf x H y : sp_resolution_method p = QuasiNewton StationaryNewton -> set_up n p its rf ->
  keeps H rf -> moves func n its H x y ->
  length x = n -> length y = n -> length (func y) = n -> length (func (kept_point x y)) = n ->
  exists rf', iteration M rf (float_state func n x)
      = Ret (rf', float_state func n (kept_point x y), Ok (map nabs (func (kept_point x y)))) /\
    set_up n p its rf' /\ rf_iter rf' = Datatypes.S (rf_iter rf) /\ keeps H rf'.
Proof.
  intros EM (S1 & S2 & S3 & S4 & S5) (CN & CI & CA) MV Dx Dy Ly Lk; unfold iteration, compute_step.
  cbn [rf_parameters set_iter]; rewrite S1, EM; unfold compute_quasi_newton_step, evaluate_jacobian_quasi_newton_step.
  set (rf0 := set_iter rf (Datatypes.S (rf_iter rf))); cbn [rf_jacobian rf0 set_iter]; rewrite CN; cbn [approximate_step bind].
  unfold when_debug; cbn [rf_debug rf0 set_iter]; rewrite S4; cbn [bind].
  fold rf0; unfold M; rewrite (moves_next func n provided get_jac its H x y rf0 MV S2 S3 CI); cbn [bind].
  destruct (damped_update rf0 x y (or_intror (conj EM CA))) as (rf' & E & SU & E1 & E2);
    [repeat split; assumption|assumption|assumption|apply MV|assumption|assumption|].
  exists rf'; split; [exact E|]; split; [exact SU|]; unfold keeps; rewrite E1, E2; repeat split; assumption.
Qed.

(** ** The loop *)
Context (P : vec f64 -> Prop) (PL : forall x, P x -> length (func x) = n).

(** Iterations which keep [I] and lead from [x] to [next x]. *)
Definition leads (I : rootfinder f64 -> Prop) (next : vec f64 -> vec f64) : Prop :=
  forall rf x, set_up n p its rf -> I rf -> P x -> ngtb (float_error func x) (sp_tolerance p) = true ->
  exists rf', iteration M rf (float_state func n x)
      = Ret (rf', float_state func n (next x), Ok (map nabs (func (next x)))) /\
    set_up n p its rf' /\ rf_iter rf' = Datatypes.S (rf_iter rf) /\ I rf' /\ P (next x).

Lemma leads_loop I next : leads I next ->
  forall budget rf x, set_up n p its rf -> I rf -> P x -> (rf_iter rf + budget = sp_max_iter p)%nat ->
  exists rf' s', ended func n p its P rf' s' (rf_iter rf + fst (float_run func next (sp_tolerance p) budget x))
    (snd (float_run func next (sp_tolerance p) budget x))
    (iterate M (Datatypes.S budget) rf (float_state func n x) (float_error func x)).
Proof.
  intros HN; induction budget as [|budget IH]; intros rf x SU HI PX HB.
  - exists rf, (float_state func n x); cbn [iterate float_run fst snd].
    rewrite (proj1 SU), (proj2 (Nat.ltb_ge (rf_iter rf) (sp_max_iter p))) by lia; rewrite andb_false_r.
    split; [reflexivity|]; split; [reflexivity|]; split; [exact SU|]; split; [lia|exact PX].
  - cbn [iterate float_run]; rewrite (proj1 SU), (proj2 (Nat.ltb_lt (rf_iter rf) (sp_max_iter p))) by lia; rewrite andb_true_r.
    destruct (ngtb (float_error func x) (sp_tolerance p)) eqn:T.
    + destruct (HN rf x SU HI PX T) as (rf1 & E1 & SU1 & I1 & HI1 & PN).
      rewrite E1; cbn [bind]; destruct (IH rf1 (next x) SU1 HI1 PN ltac:(lia)) as (rf' & s' & Q).
      exists rf', s'; destruct (float_run func next _ budget (next x)) as [k y]; cbn [fst snd] in *.
      rewrite I1 in Q; replace (rf_iter rf + Datatypes.S k)%nat with (Datatypes.S (rf_iter rf) + k)%nat by lia; exact Q.
    + exists rf, (float_state func n x); cbn [fst snd]; split; [reflexivity|]; split; [reflexivity|]; split; [exact SU|]; split; [lia|exact PX].
Qed.

Lemma damped_newton_solve next rf : sp_resolution_method p = NewtonRaphson -> set_up n p its rf -> rf_iter rf = O ->
  P (rf_initial_guess rf) ->
  (forall x, P x -> exists A z H y, source func n provided get_jac its x A z /\ lu_inverse A = Some H /\
     moves func n its H z y /\ length z = n /\ length y = n /\ length (func y) = n /\ next x = kept_point z y /\ P (next x)) ->
  exists rf', finished func n provided get_jac p P rf
    (fst (float_run func next (sp_tolerance p) (sp_max_iter p) (rf_initial_guess rf)))
    (snd (float_run func next (sp_tolerance p) (sp_max_iter p) (rf_initial_guess rf))) rf'.
Proof.
  intros EM SU I0 P0 HN; apply (finish_loop func n provided get_jac p its P PL); [exact SU|exact P0|].
  assert (LD : leads (fun _ => True) next).
  { intros rf1 x SU1 _ PX _; destruct (HN x PX) as (A & z & H & y & N1 & N2 & N3 & N4 & N5 & N6 & N7 & N8).
    destruct (damped_newton_step rf1 x A z H y EM SU1 N1 N2 N3 N4 N5 N6) as (rf' & E & SU' & EI).
    - rewrite <- N7; apply PL, N8.
    - exists rf'; rewrite N7; split; [exact E|]; rewrite <- N7; auto. }
  destruct (leads_loop _ next LD (sp_max_iter p) rf (rf_initial_guess rf) SU I P0 ltac:(lia)) as (rf' & s' & Q).
  rewrite I0 in Q; exists rf', s'; exact Q.
Qed.

Lemma damped_stationary_solve A z H y rf next : sp_resolution_method p = QuasiNewton StationaryNewton ->
  set_up n p its rf -> rf_iter rf = O -> jm_compute_at_next (rf_jacobian rf) = true ->
  let x0 := rf_initial_guess rf in P x0 ->
  source func n provided get_jac its x0 A z -> lu_inverse A = Some H ->
  moves func n its H z y -> length z = n -> length y = n -> length (func y) = n -> P (kept_point z y) ->
  (forall x, P x -> exists y, moves func n its H x y /\ length x = n /\ length y = n /\ length (func y) = n /\
     next x = kept_point x y /\ P (next x)) ->
  exists k w rf', finished func n provided get_jac p P rf k w rf' /\
  (k, w) = match sp_max_iter p with
    | O => (O, x0)
    | Datatypes.S budget => if ngtb (float_error func x0) (sp_tolerance p)
        then let '(k, w) := float_run func next (sp_tolerance p) budget (kept_point z y) in (Datatypes.S k, w)
        else (O, x0)
    end.
Proof.
  intros EM SU I0 C0 x0 P0 SR EH MV Dz Dy Ly PY HK.
  assert (ST := fun k w => finish_loop func n provided get_jac p its P PL rf k w SU P0); fold x0 in ST.
  assert (LD : leads (keeps H) next).
  { intros rf1 x SU1 HI PX _; destruct (HK x PX) as (v & N1 & N2 & N3 & N4 & N5 & N6).
    destruct (damped_kept_step rf1 x H v EM SU1 HI N1 N2 N3 N4) as (rf' & E & SU' & EI & HI').
    - rewrite <- N5; apply PL, N6.
    - exists rf'; rewrite N5; split; [exact E|]; rewrite <- N5; auto. }
  destruct (sp_max_iter p) as [|budget] eqn:EB.
  - destruct (ST O x0) as [rf' Q]; [|exists O, x0, rf'; split; [exact Q|reflexivity]].
    exists rf, (float_state func n x0); cbn [iterate]; rewrite (proj1 SU), EB, I0; rewrite andb_false_r.
    split; [reflexivity|]; split; [reflexivity|]; split; [exact SU|]; split; [exact I0|exact P0].
  - destruct (ngtb (float_error func x0) (sp_tolerance p)) eqn:T.
    + destruct (damped_first_step rf x0 A z H y EM SU C0 SR EH MV Dz Dy Ly (PL _ PY)) as (rf1 & E1 & SU1 & I1 & D1).
      destruct (leads_loop (keeps H) next LD budget rf1 (kept_point z y) SU1 D1 PY ltac:(lia)) as (rf' & s' & Q).
      destruct (float_run func next _ budget (kept_point z y)) as [k w]; cbn [fst snd] in *.
      destruct (ST (Datatypes.S k) w) as [rf2 Q2]; [|exists (Datatypes.S k), w, rf2; split; [exact Q2|reflexivity]].
      exists rf', s'; cbn [iterate]; rewrite (proj1 SU), EB, I0, T; cbn [andb Nat.ltb Nat.leb].
      unfold M in E1; rewrite E1; cbn [bind]; rewrite I1, I0 in Q; exact Q.
    + destruct (ST O x0) as [rf' Q]; [|exists O, x0, rf'; split; [exact Q|reflexivity]].
      exists rf, (float_state func n x0); cbn [iterate]; rewrite (proj1 SU), T; cbn [andb].
      split; [reflexivity|]; split; [reflexivity|]; split; [exact SU|]; split; [exact I0|exact P0].
Qed.
End Damped.
