(** Runs of the adapters of the crate in f64, without damping: the points, as
    floating-point expressions. Proof file, no definition of the model. *)
From Coq Require Import List Arith Lia Bool.
From Verif Require Import Base Num F64 Linalg Residuals Iteratives UserModel Jacobian Solver
  F64Facts ExactFacts PropsFD PropsStep.
Import ListNotations.

Lemma sub_zero_eq (y : f64) : nsub y n0 = y.
Proof. destruct y as [[]|[]| |s m e B]; reflexivity. Qed.

Lemma update_abs : forall n (l : vec f64), length l = n ->
  evaluate_residuals normalization (repeat Abs n) l (vzeros n) = Ret l.
Proof.
  induction n as [|n IH]; intros [|a l] L; try discriminate; [reflexivity|].
  cbn [repeat evaluate_residuals]; change (vzeros (S n)) with ((n0 : f64) :: vzeros n); cbv iota.
  injection L as L; rewrite (IH l L); cbn [bind normalization]; rewrite sub_zero_eq; reflexivity.
Qed.
Lemma stopping_abs : forall n (l : vec f64), length l = n ->
  evaluate_residuals (fun x y m => nabs (normalization x y m)) (repeat Abs n) l (vzeros n) = Ret (map nabs l).
Proof.
  induction n as [|n IH]; intros [|a l] L; try discriminate; [reflexivity|].
  cbn [repeat evaluate_residuals]; change (vzeros (S n)) with ((n0 : f64) :: vzeros n); cbv iota.
  injection L as L; rewrite (IH l L); cbn [bind normalization map]; rewrite sub_zero_eq; reflexivity.
Qed.

Definition squaref (n : nat) (A : mat f64) : Prop := length A = n /\ forall r, In r A -> length r = n.

Lemma normalize_row : forall (dl : vec f64) x y, map2 (fun a b => deriv_normalization x y a b Abs) dl (vzeros (length dl)) = dl.
Proof.
  induction dl as [|a dl IH]; intros x y; [reflexivity|].
  change (vzeros (length (a :: dl))) with ((n0 : f64) :: vzeros (length dl)).
  cbn [map2]; rewrite IH; f_equal; apply sub_zero_eq.
Qed.
Lemma normalize_abs n : forall m (A : mat f64) l, length A = m -> length l = m ->
  (forall r, In r A -> length r = n) ->
  normalize_rows n A (repeat (vzeros n) m) l (vzeros m) (repeat Abs m) = Ret A.
Proof.
  induction m as [|m IH]; intros [|r A] [|a l] LA Ll HR; try discriminate; [reflexivity|].
  change (repeat (vzeros n) (S m)) with ((vzeros n : vec f64) :: repeat (vzeros n) m).
  change (vzeros (S m)) with ((n0 : f64) :: vzeros m).
  cbn [repeat normalize_rows]; injection LA as LA; injection Ll as Ll.
  rewrite (IH A l LA Ll) by (intros; apply HR; right; assumption); cbn [bind].
  assert (E := HR r (or_introl eq_refl)); rewrite <- E at 1; rewrite normalize_row, E, Nat.sub_diag.
  unfold vzeros at 1; cbn [repeat]; rewrite app_nil_r; reflexivity.
Qed.

Section Float.
Context (func : vec f64 -> vec f64) (n : nat) (provided : user_model f64 -> bool)
  (get_jac : user_model f64 -> outcome (user_model f64 * result (jacobian_values f64) (model_error Empty_set Empty_set))).
Let M : Model f64 (user_model f64) Empty_set Empty_set :=
  mkModel um_problem_size um_set_iteratives um_inputs (um_evaluate func) um_get_residuals provided get_jac
    default_get_memory default_set_memory show_infallible show_infallible.

(** The state after an evaluation at [x], and the error there. *)
Definition float_state (x : vec f64) : user_model f64 := mkUserModel x (func x) (vzeros n) n.
Definition float_error (x : vec f64) : f64 := amax (map nabs (func x)).

Lemma float_evaluate x y : evaluate M (set_iteratives M (float_state x) y) = Ret (float_state y, Ok tt).
Proof. reflexivity. Qed.
Lemma float_start y : evaluate M (set_iteratives M (user_model_new n) y) = Ret (float_state y, Ok tt).
Proof. reflexivity. Qed.
Lemma float_residuals x : length (func x) = n ->
  get_residuals M (float_state x) = Ret (mkResidualsValues (func x) (vzeros n)).
Proof.
  intros L; unfold M, float_state; cbn [get_residuals]; unfold um_get_residuals, residuals_values_new; cbn [um_left um_right].
  unfold vzeros; rewrite repeat_length, L, Nat.eqb_refl; reflexivity.
Qed.
Lemma float_errors rf x : rf_residuals_config rf = all_abs n -> length (func x) = n ->
  evaluate_errors M rf (float_state x) = Ret (map nabs (func x)).
Proof.
  intros C L; unfold evaluate_errors; rewrite float_residuals by exact L; cbn [bind]; rewrite C.
  unfold evaluate_stopping_residuals, all_abs; cbn [stopping_criterias rv_left rv_right]; apply stopping_abs, L.
Qed.

(** Where the jacobian comes from: at [x] it is [A], and the model is left at [z]. *)
Definition source (its : list (iterative f64)) (x : vec f64) (A : mat f64) (z : vec f64) : Prop :=
  forall rf, rf_iters_params rf = its -> rf_residuals_config rf = all_abs n ->
  compute_jac M rf (float_state x)
  = Ret (set_jacobian rf (fst (update_jacobian_with_exact_value (rf_jacobian rf) A)), float_state z,
         if snd (update_jacobian_with_exact_value (rf_jacobian rf) A) then Ok tt else Err InvalidJacobianInverseError).

Lemma source_inverts its x A z H rf : source its x A z -> lu_inverse A = Some H ->
  rf_iters_params rf = its -> rf_residuals_config rf = all_abs n ->
  compute_jac M rf (float_state x)
  = Ret (set_jacobian rf (mkJacobianMatrix (Some A) (Some H) false false), float_state z, Ok tt).
Proof.
  intros S E1 E2 E3; rewrite (S rf E2 E3); unfold update_jacobian_with_exact_value, update_jacobian, try_inverse, Inverter_f64.
  rewrite E1; reflexivity.
Qed.

(** The next point with the inverse [H] from [z]. *)
Definition moves (its : list (iterative f64)) (H : mat f64) (z y : vec f64) : Prop :=
  length (func z) = n /\ length H = n /\ step_limitations its z (mat_vec (mat_neg H) (func z)) = Ret y.

Lemma moves_next its H z y rf : moves its H z y -> rf_iters_params rf = its -> rf_residuals_config rf = all_abs n ->
  jm_inverse (rf_jacobian rf) = Some H -> compute_next_from_inv_jac M rf (float_state z) = Ret y.
Proof.
  intros (L1 & L2 & E) E1 E2 E3; unfold compute_next_from_inv_jac; rewrite float_residuals by exact L1; cbn [bind].
  rewrite E2; unfold evaluate_update_residuals, all_abs; cbn [update_methods rv_left rv_right].
  rewrite update_abs by exact L1; cbn [bind]; rewrite E3; cbn [unwrap bind].
  unfold mat_vec_chk, mat_neg; rewrite map_length, L1, L2, Nat.eqb_refl; cbn [bind].
  fold (mat_neg H); rewrite E1; exact E.
Qed.

(** The run: [next] while the error is too large. *)
Fixpoint float_run (next : vec f64 -> vec f64) (tol : f64) (budget : nat) (x : vec f64) : nat * vec f64 :=
  match budget with
  | O => (O, x)
  | S budget' =>
      if ngtb (float_error x) tol then let '(k, y) := float_run next tol budget' (next x) in (S k, y)
      else (O, x)
  end.

(** What stays the same in the solver. *)
Definition set_up (p : solver_parameters f64) (its : list (iterative f64)) (rf : rootfinder f64) : Prop :=
  rf_parameters rf = p /\ rf_iters_params rf = its /\ rf_residuals_config rf = all_abs n /\
  rf_debug rf = false /\ rf_valid_last rf = true.

Context (p : solver_parameters f64) (its : list (iterative f64)) (ND : sp_damping p = false)
  (SM : sp_resolution_method p = NewtonRaphson \/ sp_resolution_method p = QuasiNewton StationaryNewton).

Lemma float_update rf z y : set_up p its rf -> length (func z) = n -> length (func y) = n ->
  exists rf', update_model M rf (float_state z) y = Ret (rf', float_state y, Ok (map nabs (func y))) /\
    set_up p its rf' /\ rf_iter rf' = rf_iter rf /\ rf_jacobian rf' = rf_jacobian rf.
Proof.
  intros (S1 & S2 & S3 & S4 & S5) Lz Ly; unfold update_model.
  rewrite float_errors by assumption; cbn [bind].
  change (get_iteratives M (float_state z)) with z; rewrite float_evaluate; cbn [bind].
  unfold finish_update; rewrite float_errors by assumption; cbn [bind].
  unfold when_debug; change (rf_debug (set_valid rf true)) with (rf_debug rf); rewrite S4; cbn [bind].
  change (rf_parameters (set_valid rf true)) with (rf_parameters rf); rewrite S1, ND; cbn [bind].
  unfold store_steps; change (rf_parameters (set_valid rf true)) with (rf_parameters rf); rewrite S1.
  exists (set_valid rf true); split; [destruct SM as [-> | ->]; reflexivity|].
  split; [|split; reflexivity]; repeat split; assumption.
Qed.

Lemma float_newton_step rf x A z H y : sp_resolution_method p = NewtonRaphson -> set_up p its rf ->
  source its x A z -> lu_inverse A = Some H -> moves its H z y -> length (func y) = n ->
  exists rf', iteration M rf (float_state x) = Ret (rf', float_state y, Ok (map nabs (func y))) /\
    set_up p its rf' /\ rf_iter rf' = S (rf_iter rf).
Proof.
  intros EM (S1 & S2 & S3 & S4 & S5) SR EH MV Ly; unfold iteration, compute_step.
  cbn [rf_parameters set_iter]; rewrite S1, EM; unfold compute_newton_raphson_step.
  set (rf0 := set_iter rf (S (rf_iter rf))).
  rewrite (source_inverts its x A z H rf0 SR EH S2 S3); cbn [bind].
  set (rf1 := set_jacobian rf0 _).
  unfold when_debug; cbn [rf_debug rf1 set_jacobian rf0 set_iter]; rewrite S4; cbn [bind].
  rewrite (moves_next its H z y rf1 MV S2 S3 eq_refl); cbn [bind].
  destruct (float_update rf1 z y) as (rf' & E & SU & E1 & _); [repeat split; assumption|apply MV|exact Ly|].
  exists rf'; split; [exact E|]; split; [exact SU|rewrite E1; reflexivity].
Qed.

Lemma float_first_step rf x A z H y : sp_resolution_method p = QuasiNewton StationaryNewton -> set_up p its rf ->
  jm_compute_at_next (rf_jacobian rf) = true ->
  source its x A z -> lu_inverse A = Some H -> moves its H z y -> length (func y) = n ->
  exists rf', iteration M rf (float_state x) = Ret (rf', float_state y, Ok (map nabs (func y))) /\
    set_up p its rf' /\ rf_iter rf' = S (rf_iter rf) /\
    jm_compute_at_next (rf_jacobian rf') = false /\ jm_inverse (rf_jacobian rf') = Some H.
Proof.
  intros EM (S1 & S2 & S3 & S4 & S5) CN SR EH MV Ly; unfold iteration, compute_step.
  cbn [rf_parameters set_iter]; rewrite S1, EM; unfold compute_quasi_newton_step, evaluate_jacobian_quasi_newton_step.
  set (rf0 := set_iter rf (S (rf_iter rf))); cbn [rf_jacobian rf0 set_iter]; rewrite CN.
  rewrite (source_inverts its x A z H rf0 SR EH S2 S3); cbn [bind].
  set (rf1 := set_jacobian rf0 _).
  unfold when_debug; cbn [rf_debug rf1 set_jacobian rf0 set_iter]; rewrite S4; cbn [bind].
  rewrite (moves_next its H z y rf1 MV S2 S3 eq_refl); cbn [bind].
  destruct (float_update rf1 z y) as (rf' & E & SU & E1 & E2); [repeat split; assumption|apply MV|exact Ly|].
  exists rf'; split; [exact E|]; split; [exact SU|]; rewrite E1, E2; split; [reflexivity|split; reflexivity].
Qed.

Lemma float_kept_step rf x H y : sp_resolution_method p = QuasiNewton StationaryNewton -> set_up p its rf ->
  jm_compute_at_next (rf_jacobian rf) = false -> jm_inverse (rf_jacobian rf) = Some H ->
  moves its H x y -> length (func y) = n ->
  exists rf', iteration M rf (float_state x) = Ret (rf', float_state y, Ok (map nabs (func y))) /\
    set_up p its rf' /\ rf_iter rf' = S (rf_iter rf) /\
    jm_compute_at_next (rf_jacobian rf') = false /\ jm_inverse (rf_jacobian rf') = Some H.
Proof.
  intros EM (S1 & S2 & S3 & S4 & S5) CN CI MV Ly; unfold iteration, compute_step.
  cbn [rf_parameters set_iter]; rewrite S1, EM; unfold compute_quasi_newton_step, evaluate_jacobian_quasi_newton_step.
  set (rf0 := set_iter rf (S (rf_iter rf))); cbn [rf_jacobian rf0 set_iter]; rewrite CN; cbn [approximate_step bind].
  unfold when_debug; cbn [rf_debug rf0 set_iter]; rewrite S4; cbn [bind].
  fold rf0; rewrite (moves_next its H x y rf0 MV S2 S3 CI); cbn [bind].
  destruct (float_update rf0 x y) as (rf' & E & SU & E1 & E2); [repeat split; assumption|apply MV|exact Ly|].
  exists rf'; split; [exact E|]; split; [exact SU|]; rewrite E1, E2; split; [reflexivity|split; assumption].
Qed.

(** ** The loop *)
Context (P : vec f64 -> Prop) (PL : forall x, P x -> length (func x) = n).

Definition ended (rf : rootfinder f64) (s : user_model f64) (k : nat) (y : vec f64)
  (o : outcome (rootfinder f64 * user_model f64 * result f64 (solver_error Empty_set Empty_set))) : Prop :=
  o = Ret (rf, s, Ok (float_error y)) /\ s = float_state y /\ set_up p its rf /\ rf_iter rf = k /\ P y.

Lemma float_newton_loop next : sp_resolution_method p = NewtonRaphson ->
  (forall x, P x -> ngtb (float_error x) (sp_tolerance p) = true ->
     exists A z H, source its x A z /\ lu_inverse A = Some H /\ moves its H z (next x) /\ P (next x)) ->
  forall budget rf x, set_up p its rf -> P x -> (rf_iter rf + budget = sp_max_iter p)%nat ->
  exists rf' s', ended rf' s' (rf_iter rf + fst (float_run next (sp_tolerance p) budget x))
    (snd (float_run next (sp_tolerance p) budget x)) (iterate M (S budget) rf (float_state x) (float_error x)).
Proof.
  intros EM HN; induction budget as [|budget IH]; intros rf x SU PX HB.
  - exists rf, (float_state x); cbn [iterate float_run fst snd].
    rewrite (proj1 SU), (proj2 (Nat.ltb_ge (rf_iter rf) (sp_max_iter p))) by lia; rewrite andb_false_r.
    split; [reflexivity|]; split; [reflexivity|]; split; [exact SU|]; split; [lia|exact PX].
  - cbn [iterate float_run]; rewrite (proj1 SU), (proj2 (Nat.ltb_lt (rf_iter rf) (sp_max_iter p))) by lia; rewrite andb_true_r.
    destruct (ngtb (float_error x) (sp_tolerance p)) eqn:T.
    + destruct (HN x PX T) as (A & z & H & SR & EH & MV & PN).
      destruct (float_newton_step rf x A z H (next x) EM SU SR EH MV (PL _ PN)) as (rf1 & E1 & SU1 & I1).
      rewrite E1; cbn [bind]; destruct (IH rf1 (next x) SU1 PN ltac:(lia)) as (rf' & s' & Q).
      exists rf', s'; destruct (float_run next _ budget (next x)) as [k y]; cbn [fst snd] in *.
      rewrite I1 in Q; replace (rf_iter rf + S k)%nat with (S (rf_iter rf) + k)%nat by lia; exact Q.
    + exists rf, (float_state x); cbn [fst snd]; split; [reflexivity|]; split; [reflexivity|]; split; [exact SU|]; split; [lia|exact PX].
Qed.

Lemma float_kept_loop next H : sp_resolution_method p = QuasiNewton StationaryNewton ->
  (forall x, P x -> ngtb (float_error x) (sp_tolerance p) = true -> moves its H x (next x) /\ P (next x)) ->
  forall budget rf x, set_up p its rf -> jm_compute_at_next (rf_jacobian rf) = false ->
  jm_inverse (rf_jacobian rf) = Some H -> P x -> (rf_iter rf + budget = sp_max_iter p)%nat ->
  exists rf' s', ended rf' s' (rf_iter rf + fst (float_run next (sp_tolerance p) budget x))
    (snd (float_run next (sp_tolerance p) budget x)) (iterate M (S budget) rf (float_state x) (float_error x)).
Proof.
  intros EM HN; induction budget as [|budget IH]; intros rf x SU C1 C2 PX HB.
  - exists rf, (float_state x); cbn [iterate float_run fst snd].
    rewrite (proj1 SU), (proj2 (Nat.ltb_ge (rf_iter rf) (sp_max_iter p))) by lia; rewrite andb_false_r.
    split; [reflexivity|]; split; [reflexivity|]; split; [exact SU|]; split; [lia|exact PX].
  - cbn [iterate float_run]; rewrite (proj1 SU), (proj2 (Nat.ltb_lt (rf_iter rf) (sp_max_iter p))) by lia; rewrite andb_true_r.
    destruct (ngtb (float_error x) (sp_tolerance p)) eqn:T.
    + destruct (HN x PX T) as (MV & PN).
      destruct (float_kept_step rf x H (next x) EM SU C1 C2 MV (PL _ PN)) as (rf1 & E1 & SU1 & I1 & D1 & D2).
      rewrite E1; cbn [bind]; destruct (IH rf1 (next x) SU1 D1 D2 PN ltac:(lia)) as (rf' & s' & Q).
      exists rf', s'; destruct (float_run next _ budget (next x)) as [k y]; cbn [fst snd] in *.
      rewrite I1 in Q; replace (rf_iter rf + S k)%nat with (S (rf_iter rf) + k)%nat by lia; exact Q.
    + exists rf, (float_state x); cbn [fst snd]; split; [reflexivity|]; split; [reflexivity|]; split; [exact SU|]; split; [lia|exact PX].
Qed.

(** ** The whole resolution *)
Definition finished (rf : rootfinder f64) (k : nat) (y : vec f64) (rf' : rootfinder f64) : Prop :=
  solve M rf (user_model_new n)
  = Ret (rf', float_state y, if ngtb (float_error y) (sp_tolerance p) then Err NonConvergenceError else Ok tt) /\
  rf_iter rf' = k /\ P y.

Lemma finish_loop rf k y : set_up p its rf -> P (rf_initial_guess rf) ->
  (exists rf' s', ended rf' s' k y
     (iterate M (S (sp_max_iter p)) rf (float_state (rf_initial_guess rf)) (float_error (rf_initial_guess rf)))) ->
  exists rf', finished rf k y rf'.
Proof.
  intros SU P0 (rf' & s' & E & -> & SU' & EK & PY); exists rf'; split; [|split; assumption].
  unfold solve; rewrite float_start; cbn [bind]; unfold solve_from.
  destruct SU as (S1 & S2 & S3 & S4 & S5); rewrite float_errors by (try exact S3; apply PL, P0); cbn [bind].
  unfold when_debug; rewrite S4; cbn [bind]; rewrite S1.
  fold (float_error (rf_initial_guess rf)); rewrite E; cbn [bind].
  unfold verdict; destruct SU' as (-> & _ & _ & _ & ->); reflexivity.
Qed.

Lemma float_newton_solve next rf : sp_resolution_method p = NewtonRaphson -> set_up p its rf -> rf_iter rf = O ->
  P (rf_initial_guess rf) ->
  (forall x, P x -> ngtb (float_error x) (sp_tolerance p) = true ->
     exists A z H, source its x A z /\ lu_inverse A = Some H /\ moves its H z (next x) /\ P (next x)) ->
  exists rf', finished rf (fst (float_run next (sp_tolerance p) (sp_max_iter p) (rf_initial_guess rf)))
    (snd (float_run next (sp_tolerance p) (sp_max_iter p) (rf_initial_guess rf))) rf'.
Proof.
  intros EM SU I0 P0 HN; apply finish_loop; [exact SU|exact P0|].
  destruct (float_newton_loop next EM HN (sp_max_iter p) rf (rf_initial_guess rf) SU P0 ltac:(lia)) as (rf' & s' & Q).
  rewrite I0 in Q; exists rf', s'; exact Q.
Qed.

Lemma float_stationary_solve next A z H rf : sp_resolution_method p = QuasiNewton StationaryNewton ->
  set_up p its rf -> rf_iter rf = O -> jm_compute_at_next (rf_jacobian rf) = true ->
  let x0 := rf_initial_guess rf in P x0 ->
  source its x0 A z -> lu_inverse A = Some H ->
  (ngtb (float_error x0) (sp_tolerance p) = true -> moves its H z (next x0) /\ P (next x0)) ->
  forall kept, (forall x, P x -> ngtb (float_error x) (sp_tolerance p) = true -> moves its H x (kept x) /\ P (kept x)) ->
  exists k y rf', finished rf k y rf' /\
  (k, y) = match sp_max_iter p with
    | O => (O, x0)
    | S budget => if ngtb (float_error x0) (sp_tolerance p)
        then let '(k, y) := float_run kept (sp_tolerance p) budget (next x0) in (S k, y)
        else (O, x0)
    end.
Proof.
  intros EM SU I0 C0 x0 P0 SR EH HF kept HK.
  assert (ST := fun k y => finish_loop rf k y SU P0); fold x0 in ST.
  destruct (sp_max_iter p) as [|budget] eqn:EB.
  - destruct (ST O x0) as [rf' Q]; [|exists O, x0, rf'; split; [exact Q|reflexivity]].
    exists rf, (float_state x0); cbn [iterate]; rewrite (proj1 SU), EB, I0; rewrite andb_false_r.
    split; [reflexivity|]; split; [reflexivity|]; split; [exact SU|]; split; [exact I0|exact P0].
  - destruct (ngtb (float_error x0) (sp_tolerance p)) eqn:T.
    + destruct (HF eq_refl) as (MV & PN).
      destruct (float_first_step rf x0 A z H (next x0) EM SU C0 SR EH MV (PL _ PN)) as (rf1 & E1 & SU1 & I1 & D1 & D2).
      destruct (float_kept_loop kept H EM HK budget rf1 (next x0) SU1 D1 D2 PN ltac:(lia)) as (rf' & s' & Q).
      destruct (float_run kept _ budget (next x0)) as [k y]; cbn [fst snd] in *.
      destruct (ST (S k) y) as [rf2 Q2]; [|exists (S k), y, rf2; split; [exact Q2|reflexivity]].
      exists rf', s'; cbn [iterate]; rewrite (proj1 SU), EB, I0, T; cbn [andb Nat.ltb Nat.leb].
      rewrite E1; cbn [bind]; rewrite I1, I0 in Q; exact Q.
    + destruct (ST O x0) as [rf' Q]; [|exists O, x0, rf'; split; [exact Q|reflexivity]].
      exists rf, (float_state x0); cbn [iterate]; rewrite (proj1 SU), T; cbn [andb].
      split; [reflexivity|]; split; [reflexivity|]; split; [exact SU|]; split; [exact I0|exact P0].
Qed.
End Float.

(** ** The two sources of the jacobian *)
Lemma analytic_source (func : vec f64 -> vec f64) (jac : vec f64 -> mat f64) n its x :
  length (func x) = n -> squaref n (jac x) ->
  source func n (fun _ => true) (um_get_jacobian jac) its x (jac x) x.
Proof.
  intros L (SA & SR) rf E1 E2; unfold compute_jac; cbn [jacobian_provided].
  unfold evaluate_jacobian_from_analytical_function.
  rewrite float_residuals by exact L; cbn [bind get_jacobian].
  unfold um_get_jacobian, jacobian_values_new; cbn [um_inputs um_problem_size float_state].
  assert (Q : forall A, squaref n A -> is_square n A = true).
  { intros A (Q1 & Q2); unfold is_square; rewrite Q1, Nat.eqb_refl; cbn [andb].
    apply forallb_forall; intros r Hr; apply Nat.eqb_eq, Q2, Hr. }
  rewrite SA, Q by (split; assumption); rewrite Q; cycle 1.
  { split; [apply repeat_length|]; intros r Hr; apply repeat_spec in Hr; subst r; apply repeat_length. }
  cbn [andb bind].
  rewrite E2; unfold normalize, all_abs; cbn [update_methods rv_left rv_right jv_left jv_right]; rewrite L.
  unfold mzeros; rewrite normalize_abs by assumption; cbn [bind].
  destruct (update_jacobian_with_exact_value (rf_jacobian rf) (jac x)) as [j [|]]; reflexivity.
Qed.

Lemma index_nth {T} (d0 : T) : forall l i, (i < length l)%nat -> index l i = Ret (nth i l d0).
Proof.
  intros l i Hi; unfold index; rewrite (nth_error_nth' l d0 Hi); reflexivity.
Qed.
Lemma update_shift (d : f64) : forall (x : vec f64) i, (i < length x)%nat ->
  update_at x i (fun a => nadd a d) = Ret (shift x i d).
Proof.
  induction x as [|a x IH]; intros [|i] Hi; cbn [length] in Hi; try lia; [reflexivity|].
  cbn [update_at]; rewrite IH by lia; reflexivity.
Qed.

Definition fd_columns (func : vec f64 -> vec f64) (x d : vec f64) (i todo : nat) : list (vec f64) :=
  map (fun j => vdiv (vsub_raw (func (shift x j (nth j d n0))) (func x)) (nth j d n0)) (seq i todo).
Definition fd_float (func : vec f64 -> vec f64) (n : nat) (x d : vec f64) : mat f64 :=
  mat_of_cols n (fd_columns func x d 0 n).

Lemma map2_length {A B C} (g : A -> B -> C) : forall u v, length u = length v -> length (map2 g u v) = length u.
Proof. induction u as [|a u IH]; intros [|b v] L; try discriminate; [reflexivity|]; cbn [map2 length]; rewrite IH; auto. Qed.

Lemma fd_source (func : vec f64 -> vec f64) n its x d z :
  (1 <= n)%nat -> length x = n -> compute_perturbations its x = Ret d -> length d = n ->
  length (func x) = n -> (forall j, (j < n)%nat -> length (func (shift x j (nth j d n0))) = n) ->
  z = shift x (n - 1) (nth (n - 1) d n0) ->
  source func n default_jacobian_provided (default_get_jacobian um_inputs) its x (fd_float func n x d) z.
Proof.
  intros Pn Lx ED Ld Lf Ls -> rf E1 E2; unfold compute_jac; cbn [jacobian_provided default_jacobian_provided].
  unfold default_jacobian_provided at 1; cbv iota.
  unfold evaluate_jacobian_from_finite_difference; rewrite E1.
  change (get_iteratives _ (float_state func n x)) with x; rewrite ED; cbn [bind].
  unfold compute_jacobian_from_finite_difference; rewrite float_residuals by exact Lf; cbn [bind].
  rewrite E2; unfold evaluate_update_residuals at 1, all_abs at 1; cbn [update_methods rv_left rv_right].
  rewrite update_abs by exact Lf; cbn [bind].
  change (get_iteratives _ (float_state func n x)) with x; change (len_problem _ (float_state func n x)) with n; rewrite Ld.
  assert (LOOP : forall todo i w, (i + todo = n)%nat ->
    finite_difference_columns (mkModel um_problem_size um_set_iteratives um_inputs (um_evaluate func) um_get_residuals
      default_jacobian_provided (default_get_jacobian um_inputs) default_get_memory default_set_memory
      show_infallible show_infallible) (all_abs n) n [] x (func x) d todo i (float_state func n w)
    = Ret (float_state func n (match todo with O => w | _ => shift x (n - 1) (nth (n - 1) d n0) end),
           Ok (fd_columns func x d i todo))).
  { induction todo as [|todo IH]; intros i w Hi; [reflexivity|].
    cbn [finite_difference_columns]; rewrite (index_nth n0) by lia; cbn [bind].
    rewrite update_shift by lia; cbn [bind]; rewrite float_evaluate; cbn [bind].
    rewrite float_residuals by (apply Ls; lia); cbn [bind].
    unfold evaluate_update_residuals, all_abs at 1; cbn [update_methods rv_left rv_right].
    rewrite update_abs by (apply Ls; lia); cbn [bind].
    unfold vsub; rewrite Ls, Lf, Nat.eqb_refl by lia; cbn [bind].
    unfold vdiv at 1; rewrite map_length; unfold vsub_raw at 1; rewrite map2_length by (rewrite Ls, Lf by lia; reflexivity).
    rewrite Ls, Nat.eqb_refl by lia; cbn [guard_shape].
    change (set_memory _ ?s []) with s; rewrite IH by lia; cbn [bind].
    unfold fd_columns; cbn [seq map].
    destruct todo as [|todo]; [replace (n - 1)%nat with i by lia|]; reflexivity. }
  change (get_memory _ (float_state func n x)) with (@nil f64).
  rewrite LOOP by lia; cbn [bind]; destruct n as [|n']; [lia|].
  fold (fd_float func (S n') x d).
  destruct (update_jacobian_with_exact_value (rf_jacobian rf) (fd_float func (S n') x d)) as [j [|]]; reflexivity.
Qed.

(** ** Steps without limits *)
Definition free_float (it : iterative f64) : Prop :=
  forall v s, isnan (nadd v s) = false -> it_step_limitation it v s = nadd v s.

Lemma free_steps : forall its v s, Forall free_float its -> length its = length v -> length s = length v ->
  Forall (fun a => isnan a = false) (map2 nadd v s) -> step_limitations its v s = Ret (map2 nadd v s).
Proof.
  induction its as [|it its IH]; intros [|a v] [|b s] FI L1 L2 NN; try discriminate; [reflexivity|].
  inversion FI as [|? ? F1 F2]; subst; cbn [map2] in *; inversion NN as [|? ? N1 N2]; subst.
  cbn [step_limitations]; rewrite IH by auto; cbn [bind]; rewrite F1 by exact N1; reflexivity.
Qed.

Definition jac_iteratives64 (n : nat) : list (iterative f64) := map iterative_of_params (default_vec_iteratives n).
Definition fd_iteratives64 (n : nat) : list (iterative f64) := map iterative_of_params_fd (default_vec_iteratives_fd n).
Lemma jac_free n : Forall free_float (jac_iteratives64 n) /\ length (jac_iteratives64 n) = n.
Proof.
  unfold jac_iteratives64, default_vec_iteratives; rewrite map_length, repeat_length; split; [|reflexivity].
  apply Forall_forall; intros it Hi; apply in_map_iff in Hi as (q & <- & Hq); apply repeat_spec in Hq; subst q.
  intros v s; exact (C21_default_limits v s).
Qed.
Lemma fd_free n : Forall free_float (fd_iteratives64 n) /\ length (fd_iteratives64 n) = n.
Proof.
  unfold fd_iteratives64, default_vec_iteratives_fd; rewrite map_length, repeat_length; split; [|reflexivity].
  apply Forall_forall; intros it Hi; apply in_map_iff in Hi as (q & <- & Hq); apply repeat_spec in Hq; subst q.
  intros v s; exact (C21_default_limits v s).
Qed.
