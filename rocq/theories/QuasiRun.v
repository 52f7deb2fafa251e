(** Iterations of the solver in exact arithmetic with the stored data of the
    quasi-Newton methods made explicit; the run of the stationary Newton method. *)
From Coq Require Import Reals Lra.
From Verif Require Import Base Num Linalg Residuals Iteratives UserModel Jacobian Solver
  RNum LuFacts XR PropsQuasi PropsFD ExactFacts ExactRun.
Open Scope R_scope.

Section Run.
Context {St EI EU : Type} (M : Model XR St EI EU) (n : nat) (conf : residuals_config)
  (Good : St -> Prop) (D : vec R -> Prop) (L Rg U E : vec R -> vec R)
  (WB : well_behaved M n conf Good D L Rg U E).

Notation at_point := (at_point M n Good D L Rg).
Notation source := (jacobian_source M n conf Good D L Rg U).

(** What is stored for the next update after a step from [z] to [w]. *)
Definition stored (rf : rootfinder XR) (z w : vec R) : rootfinder XR :=
  match sp_resolution_method (rf_parameters rf) with
  | NewtonRaphson | QuasiNewton StationaryNewton => set_valid rf true
  | QuasiNewton _ => set_steps (set_valid rf true) (lift (vsub_raw w z))
                       (lift (vsub_raw (E w) (E z))) (lift (E w))
  end.

Lemma stored_fields rf z w : rf_valid_last (stored rf z w) = true /\
  rf_parameters (stored rf z w) = rf_parameters rf /\
  rf_residuals_config (stored rf z w) = rf_residuals_config rf /\
  rf_iters_params (stored rf z w) = rf_iters_params rf /\
  rf_debug (stored rf z w) = rf_debug rf /\ rf_iter (stored rf z w) = rf_iter rf /\
  rf_jacobian (stored rf z w) = rf_jacobian rf.
Proof.
  unfold stored; destruct (sp_resolution_method (rf_parameters rf)) as [|[|u|u]]; repeat split.
Qed.

Lemma update_at rf z s w : rf_debug rf = false -> rf_residuals_config rf = conf ->
  no_worse E rf z w -> at_point z s -> D w -> length w = n ->
  exists s', at_point w s' /\
    update_model M rf s (lift w) = Ret (stored rf z w, s', Ok (lift (E w))).
Proof.
  intros ND HC HDa PZ DW LW.
  unfold update_model; rewrite (errors_at M n conf Good D L Rg U E WB rf z s) by auto; cbn [bind].
  destruct (wb_eval _ _ _ _ _ _ _ _ _ WB s w (proj1 PZ) DW LW) as (s2 & E2 & P2).
  rewrite E2; cbn [bind]; exists s2; split; [exact P2|].
  unfold finish_update.
  rewrite (errors_at M n conf Good D L Rg U E WB (set_valid rf true) w s2) by auto; cbn [bind].
  unfold when_debug at 1; replace (rf_debug (set_valid rf true)) with false by (symmetry; exact ND).
  cbn [bind].
  assert (ED : (if sp_damping (rf_parameters (set_valid rf true))
     then damping M (set_valid rf true) s2 (amax (lift (E z))) (get_iteratives M s) (lift w) (lift (E w))
     else Ret (set_valid rf true, s2, lift (E w))) = Ret (set_valid rf true, s2, lift (E w))).
  { change (rf_parameters (set_valid rf true)) with (rf_parameters rf).
    destruct HDa as [Q|Q]; [rewrite Q; reflexivity|].
    destruct (sp_damping (rf_parameters rf)); [|reflexivity].
    unfold damping; rewrite !lift_amax; unfold ngtb; cbn [nltb Num_XR xltb].
    replace (Rltb (amax (E z)) (amax (E w))) with false; [reflexivity|].
    symmetry; apply Rltb_false; exact Q. }
  rewrite ED; cbn [bind].
  unfold store_steps, stored.
  change (rf_parameters (set_valid rf true)) with (rf_parameters rf).
  destruct PZ as (_ & Dz & Lz & Qz & _), P2 as (_ & Dw & _ & Qw & _); rewrite Qz, Qw.
  destruct (wb_stopping _ _ _ _ _ _ _ _ _ WB z Dz Lz) as [LE1 _],
    (wb_stopping _ _ _ _ _ _ _ _ _ WB w Dw LW) as [LE2 _].
  rewrite !lift_vsub by congruence; cbn [bind].
  destruct (sp_resolution_method (rf_parameters rf)) as [|[|u|u]]; reflexivity.
Qed.

(** The configuration of a run without limits and log. *)
Definition plain (m : resolution_method) (rf : rootfinder XR) : Prop :=
  rf_debug rf = false /\ rf_residuals_config rf = conf /\
  Forall unlimited (rf_iters_params rf) /\ length (rf_iters_params rf) = n /\
  sp_resolution_method (rf_parameters rf) = m.

Definition next_rf (rf : rootfinder XR) (j : jacobian_matrix XR) (z w : vec R) : rootfinder XR :=
  stored (set_jacobian (set_iter rf (S (rf_iter rf))) j) z w.

Lemma next_rf_plain m rf j z w : plain m rf -> plain m (next_rf rf j z w).
Proof.
  intros (A1 & A2 & A3 & A4 & A6); unfold next_rf.
  set (rf1 := set_jacobian _ _).
  destruct (stored_fields rf1 z w) as (F1 & F2 & F3 & F4 & F5 & F6 & F7).
  unfold plain; rewrite F2, F3, F4, F5; repeat split; assumption.
Qed.

(** An iteration that computes the jacobian. *)
Lemma iteration_computed m rf x s J z H : plain m rf -> computes_jacobian rf -> at_point x s ->
  source rf x s J z -> lu_inverse J = Some H -> D (newton_point U H x) ->
  no_worse E rf z (newton_point U H x) ->
  exists s', at_point (newton_point U H x) s' /\
    iteration M rf s = Ret (next_rf rf (exact_jacobian J H) z (newton_point U H x), s',
                            Ok (lift (E (newton_point U H x)))).
Proof.
  intros (A1 & A2 & A3 & A4 & A6) CJ HP JS EH DN NW.
  destruct (step_at M n conf Good D L Rg U E WB (set_iter rf (S (rf_iter rf))) x s J z A1 A2 A3 A4 CJ HP JS)
    as (s1 & P1 & ES).
  rewrite EH in ES; destruct ES as (MJ & MH & I1 & I2 & ES).
  unfold iteration; rewrite ES; cbn [bind].
  assert (Lw : length (newton_point U H x) = n).
  { apply (newton_point_length n); [exact MH|apply HP]. }
  apply update_at; assumption.
Qed.

(** An iteration that reuses or updates the jacobian. *)
Lemma iteration_approx qm rf x s j H : plain (QuasiNewton qm) rf ->
  jm_compute_at_next (rf_jacobian rf) = false -> at_point x s ->
  approximate_step (set_iter rf (S (rf_iter rf))) qm
  = Ret (set_jacobian (set_iter rf (S (rf_iter rf))) j, true) ->
  jm_inverse j = Some (liftm H) -> is_mat n H -> D (newton_point U H x) ->
  no_worse E rf x (newton_point U H x) ->
  exists s', at_point (newton_point U H x) s' /\
    iteration M rf s = Ret (next_rf rf j x (newton_point U H x), s',
                            Ok (lift (E (newton_point U H x)))).
Proof.
  intros (A1 & A2 & A3 & A4 & A6) CJ HP EA EH MH DN NW.
  set (rf1 := set_jacobian (set_iter rf (S (rf_iter rf))) j) in *.
  assert (EN : compute_next_from_inv_jac M rf1 s = Ret (lift (newton_point U H x))).
  { apply (next_at M n conf Good D L Rg U E WB); auto. }
  assert (ES : compute_step M (set_iter rf (S (rf_iter rf))) s
    = Ret (rf1, s, Ok (lift (newton_point U H x)))).
  { unfold compute_step.
    change (sp_resolution_method (rf_parameters (set_iter rf (S (rf_iter rf)))))
      with (sp_resolution_method (rf_parameters rf)).
    rewrite A6; unfold compute_quasi_newton_step, evaluate_jacobian_quasi_newton_step.
    change (rf_jacobian (set_iter rf (S (rf_iter rf)))) with (rf_jacobian rf).
    rewrite CJ, EA; cbn [bind].
    unfold when_debug; replace (rf_debug rf1) with false by (symmetry; exact A1); cbn [bind].
    rewrite EN; reflexivity. }
  unfold iteration; rewrite ES; cbn [bind].
  assert (Lw : length (newton_point U H x) = n).
  { apply (newton_point_length n); [exact MH|apply HP]. }
  apply update_at; assumption.
Qed.

(** ** Stationary Newton *)

(** The run with the inverse [H] kept. *)
Fixpoint kept_run (H : mat R) (tol : XR) (budget : nat) (x : vec R) : nat * vec R :=
  match budget with
  | O => (O, x)
  | S budget' =>
      if xltb tol (Fin (amax (E x)))
      then let '(k, y) := kept_run H tol budget' (newton_point U H x) in (S k, y)
      else (O, x)
  end.

Context (H : mat R) (MH : is_mat n H) (tol : XR) (P : vec R -> Prop)
  (HP : forall x, P x -> length x = n -> xltb tol (Fin (amax (E x))) = true ->
     P (newton_point U H x) /\ D (newton_point U H x)).

(** No iteration is followed by damping: it is off, or the errors never grow. *)
Definition undamped (rf : rootfinder XR) : Prop :=
  sp_damping (rf_parameters rf) = false \/
  forall x, P x -> length x = n -> xltb tol (Fin (amax (E x))) = true ->
    amax (E (newton_point U H x)) <= amax (E x).

Lemma kept_iterate : forall left fuel rf s x j, (left < fuel)%nat ->
  plain (QuasiNewton StationaryNewton) rf -> undamped rf ->
  sp_tolerance (rf_parameters rf) = tol ->
  rf_jacobian rf = j -> jm_compute_at_next j = false -> jm_inverse j = Some (liftm H) ->
  P x -> at_point x s -> (rf_iter rf + left = sp_max_iter (rf_parameters rf))%nat ->
  rf_valid_last rf = true ->
  let '(k, y) := kept_run H tol left x in
  exists rf' s', rf_parameters rf' = rf_parameters rf /\ rf_valid_last rf' = true /\
    iterate M fuel rf s (Fin (amax (E x))) = Ret (rf', s', Ok (Fin (amax (E y)))) /\
    at_point y s' /\ rf_iter rf' = (rf_iter rf + k)%nat.
Proof.
  induction left as [|left IH]; intros fuel rf s x j LF PL HDa HT EJ CJ IJ Px HA HN HV;
    (destruct fuel as [|fuel]; [lia|]); cbn [kept_run iterate].
  - exists rf, s; split; [reflexivity|]; split; [exact HV|].
    replace (Nat.ltb (rf_iter rf) (sp_max_iter (rf_parameters rf))) with false
      by (symmetry; apply Nat.ltb_ge; lia).
    rewrite andb_false_r; split; [reflexivity|]; split; [exact HA|lia].
  - replace (Nat.ltb (rf_iter rf) (sp_max_iter (rf_parameters rf))) with true
      by (symmetry; apply Nat.ltb_lt; lia).
    rewrite andb_true_r; unfold ngtb; rewrite HT; cbn [nltb Num_XR].
    destruct (xltb tol (Fin (amax (E x)))) eqn:ET.
    2: { exists rf, s; split; [reflexivity|]; split; [exact HV|].
         split; [reflexivity|]; split; [exact HA|lia]. }
    assert (Lx : length x = n) by apply HA.
    destruct (HP x Px Lx ET) as (P1 & D1).
    destruct (iteration_approx StationaryNewton rf x s j H PL) as (s1 & A1 & EI2); auto.
    { rewrite EJ; exact CJ. }
    { cbn [approximate_step]; f_equal; f_equal; rewrite <- EJ; destruct rf; reflexivity. }
    { destruct HDa as [HDa|HDa]; [left; exact HDa|right; exact (HDa x Px Lx ET)]. }
    rewrite EI2; cbn [bind]; rewrite lift_amax.
    set (rf1 := next_rf rf j x (newton_point U H x)) in *.
    assert (PL1 : plain (QuasiNewton StationaryNewton) rf1) by (apply next_rf_plain; exact PL).
    destruct (stored_fields (set_jacobian (set_iter rf (S (rf_iter rf))) j) x (newton_point U H x))
      as (F1 & F2 & F3 & F4 & F5 & F6 & F7).
    change (stored _ _ _) with rf1 in F1, F2, F3, F4, F5, F6, F7.
    cbn in F2, F6, F7.
    specialize (IH fuel rf1 s1 (newton_point U H x) j ltac:(lia) PL1).
    unfold undamped in IH, HDa; rewrite F2, F6 in IH.
    specialize (IH HDa HT F7 CJ IJ P1 A1 ltac:(lia) F1).
    destruct (kept_run H tol left (newton_point U H x)) as [k y].
    destruct IH as (rf' & s' & I1 & I2 & I3 & I4 & I5); exists rf', s'.
    split; [exact I1|]; split; [exact I2|]; split; [exact I3|]; split; [exact I4|lia].
Qed.

Lemma kept_newton_run A : lu_inverse A = Some H -> forall budget x,
  newton_run (fun _ => A) U (fun x => amax (E x)) tol budget x
  = let '(k, y) := kept_run H tol budget x in (k, y, false).
Proof.
  intros EH; induction budget as [|budget IH]; intros x; cbn [newton_run kept_run]; [reflexivity|].
  destruct (xltb tol (Fin (amax (E x)))); [|reflexivity].
  rewrite EH, IH; destruct (kept_run H tol budget (newton_point U H x)); reflexivity.
Qed.

(** A fresh stationary Newton solve: the jacobian of the start is used
    throughout. *)
Lemma stationary_solve_damped rf s x0 A z :
  plain (QuasiNewton StationaryNewton) rf -> undamped rf ->
  (xltb tol (Fin (amax (E x0))) = true -> no_worse E rf z (newton_point U H x0)) ->
  sp_tolerance (rf_parameters rf) = tol ->
  jm_compute_at_next (rf_jacobian rf) = true ->
  rf_iter rf = O -> rf_valid_last rf = true -> rf_initial_guess rf = lift x0 -> length x0 = n ->
  P x0 -> D x0 -> Good s ->
  (forall s1, at_point x0 s1 -> source rf x0 s1 A z) -> lu_inverse A = Some H ->
  let '(k, y) := kept_run H tol (sp_max_iter (rf_parameters rf)) x0 in
  exists rf' s',
    solve M rf s = Ret (rf', s', if xltb tol (Fin (amax (E y))) then Err NonConvergenceError else Ok tt) /\
    at_point y s' /\ rf_iter rf' = k.
Proof.
  intros PL HDa HD1 HT CJ H0 HV HG Lx Px Dx Gs JS EH.
  destruct (wb_eval _ _ _ _ _ _ _ _ _ WB s x0 Gs Dx Lx) as (s1 & E1 & P1).
  assert (PL' := PL); destruct PL' as (A1 & A2 & A3 & A4 & A6).
  unfold solve; rewrite HG, E1; cbn [bind]; unfold solve_from.
  rewrite (errors_at M n conf Good D L Rg U E WB rf x0 s1 A2 P1); cbn [bind].
  unfold when_debug; rewrite A1; cbn [bind]; rewrite lift_amax.
  remember (sp_max_iter (rf_parameters rf)) as fuel eqn:EM; cbn [iterate]; rewrite <- EM.
  destruct fuel as [|left]; cbn [kept_run].
  - rewrite H0; rewrite andb_false_r; cbn [bind].
    exists rf, s1; unfold verdict, ngtb; rewrite HT, HV; auto.
  - rewrite H0; cbn [Nat.ltb Nat.leb]; rewrite andb_true_r; unfold ngtb; rewrite HT; cbn [nltb Num_XR].
    destruct (xltb tol (Fin (amax (E x0)))) eqn:ET.
    2: { cbn [bind]; exists rf, s1; unfold verdict, ngtb; rewrite HT; cbn [nltb Num_XR]; rewrite ET, HV; auto. }
    destruct (HP x0 Px Lx ET) as (Pw & Dw).
    destruct (iteration_computed (QuasiNewton StationaryNewton) rf x0 s1 A z H PL) as (s2 & P2 & EI2); auto.
    { right; exact CJ. }
    rewrite EI2; cbn [bind]; rewrite lift_amax.
    set (rf1 := next_rf rf (exact_jacobian A H) z (newton_point U H x0)) in *.
    destruct (stored_fields (set_jacobian (set_iter rf (S (rf_iter rf))) (exact_jacobian A H)) z
      (newton_point U H x0)) as (F1 & F2 & F3 & F4 & F5 & F6 & F7).
    change (stored _ _ _) with rf1 in F1, F2, F3, F4, F5, F6, F7; cbn in F2, F6, F7.
    pose proof (kept_iterate left (S left) rf1 s2 (newton_point U H x0) (exact_jacobian A H)
      ltac:(lia) (next_rf_plain _ _ _ _ _ PL)) as K.
    unfold undamped in K, HDa; rewrite F2, F6 in K.
    specialize (K HDa HT F7 eq_refl eq_refl Pw P2 ltac:(lia) F1).
    destruct (kept_run H tol left (newton_point U H x0)) as [k y].
    destruct K as (rf' & s' & K1 & K2 & K3 & K4 & K5); exists rf', s'.
    rewrite K3; cbn [bind]; split; [|split; [exact K4|rewrite K5, H0; lia]].
    unfold verdict, ngtb; rewrite K1, HT, K2; reflexivity.
Qed.

Lemma stationary_solve rf s x0 A z :
  plain (QuasiNewton StationaryNewton) rf -> sp_damping (rf_parameters rf) = false ->
  sp_tolerance (rf_parameters rf) = tol ->
  jm_compute_at_next (rf_jacobian rf) = true ->
  rf_iter rf = O -> rf_valid_last rf = true -> rf_initial_guess rf = lift x0 -> length x0 = n ->
  P x0 -> D x0 -> Good s ->
  (forall s1, at_point x0 s1 -> source rf x0 s1 A z) -> lu_inverse A = Some H ->
  let '(k, y) := kept_run H tol (sp_max_iter (rf_parameters rf)) x0 in
  exists rf' s',
    solve M rf s = Ret (rf', s', if xltb tol (Fin (amax (E y))) then Err NonConvergenceError else Ok tt) /\
    at_point y s' /\ rf_iter rf' = k.
Proof. intros PL HD; apply stationary_solve_damped; [exact PL|left; exact HD|intros _; left; exact HD]. Qed.
End Run.
