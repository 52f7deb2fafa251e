(** C85: near a root, the methods converge whether or not damping is asked for,
    in exact arithmetic and in every dimension. *)
From Coq Require Import Reals Lra.
From Verif Require Import Base Num Linalg Residuals Iteratives UserModel Jacobian Solver
  RNum LuFacts XR PropsQuasi PropsFD ExactFacts ExactRun PropsExact Props1d LocalFacts
  PropsLocal QuasiRun PropsStationary DampedRun.
Open Scope R_scope.

(** Half of the way left to [q]. *)
Definition damped_factor (q : R) : R := (1 + q) / 2.

Section Drawn.
Context {St EI EU : Type} (M : Model XR St EI EU) (n : nat) (conf : residuals_config)
  (Good : St -> Prop) (D : vec R -> Prop) (L Rg U : vec R -> vec R)
  (WB : well_behaved M n conf Good D L Rg U (fun x => vabs (U x)))
  (its : list (iterative XR)) (J : vec R -> mat R) (z : vec R -> vec R)
  (xs : vec R) (rho beta kappa eta lam : R)
  (HA : attracting n U J xs rho beta kappa eta lam)
  (p : solver_parameters XR) (tol q c : R)
  (HT : sp_tolerance p = Fin tol) (Q : factor beta kappa eta rho <= q) (Q1 : q < 1)
  (C : 0 <= c) (QC : c <= (1 - q) * rho)
  (HD : forall x, near n xs (rho + c) x -> D x)
  (HZ : forall x r, 0 <= r <= rho -> near n xs r x -> near n xs (r + c) (z x)).
Notation at_point := (at_point M n Good D L Rg).
Notation source := (jacobian_source M n conf Good D L Rg U).
Notation E := (fun x => vabs (U x)).

Lemma rho_pos : 0 <= rho.
Proof. apply (at_pos _ _ _ _ _ _ _ _ _ HA). Qed.

Lemma q_pos : 0 <= q.
Proof. pose proof (factor_pos n U J xs rho beta kappa eta lam HA rho rho_pos); lra. Qed.

Lemma near_D x r : r <= rho -> near n xs r x -> D x.
Proof. intros Le N; apply HD; apply near_le with r; [lra|exact N]. Qed.

Lemma small_errors x r : 0 <= r <= rho -> near n xs r x -> amax (E x) <= lam * r.
Proof.
  intros Pr N; cbv beta; rewrite amax_vabs.
  assert (Nr : near n xs rho x) by (apply near_le with r; [lra|exact N]).
  destruct (at_pos _ _ _ _ _ _ _ _ _ HA) as (_ & _ & _ & _ & Pl).
  apply amax_le; [apply Rmult_le_pos; lra|].
  rewrite (at_fun _ _ _ _ _ _ _ _ _ HA x Nr); intros i Hi.
  exact (at_small _ _ _ _ _ _ _ _ _ HA x r Nr ltac:(lra) N i Hi).
Qed.

Lemma newton_closer x r : 0 <= r <= rho -> near n xs r x ->
  exists H, lu_inverse (J x) = Some H /\ near n xs (q * r) (newton_point U H x).
Proof.
  intros Pr N.
  assert (F1 : factor beta kappa eta r <= factor beta kappa eta rho)
    by (apply (factor_le n U J xs rho beta kappa eta lam HA); lra).
  destruct (contract_step n U J xs rho beta kappa eta lam HA x r Pr ltac:(lra) N) as (H & EH & NH).
  exists H; split; [exact EH|]; eapply near_le; [|exact NH].
  apply Rmult_le_compat_r; lra.
Qed.

(** The end of an iteration that proposed a point [q] times as far from the
    root, the last evaluation being at most [e] away. *)
Lemma closer m (rf1 : rootfinder XR) s1 (zz w : vec R) r e : plain n conf m rf1 ->
  jm_approximated (rf_jacobian rf1) = false ->
  at_point zz s1 -> 0 <= r <= rho -> 0 <= e <= c -> near n xs (r + e) zz -> near n xs (q * r) w ->
  exists rf' s' y, update_model M rf1 s1 (lift w) = Ret (rf', s', Ok (lift (E y))) /\
    at_point y s' /\ rf_valid_last rf' = true /\ settled rf1 rf' /\
    near n xs (damped_factor q * r + e / 2) y.
Proof.
  intros (A1 & A2 & _) NA PZ Pr Pe Nz Nw; pose proof q_pos as Q0; pose proof rho_pos as R0.
  assert (B1 : q * r <= r) by (rewrite <- (Rmult_1_l r) at 2; apply Rmult_le_compat_r; lra).
  assert (B0 : 0 <= q * r) by (apply Rmult_le_pos; lra).
  assert (NM := midpoint_near n xs (r + e) (q * r) zz w Nz Nw).
  destruct (update_damped M n conf Good D L Rg U E WB rf1 zz s1 w A1 A2 NA PZ) as (rf' & s' & y & Y & A & V & F & EU1).
  - apply near_D with (q * r); [lra|exact Nw].
  - exact (proj1 Nw).
  - apply HD; apply near_le with ((r + e + q * r) / 2); [|exact NM]; lra.
  - exists rf', s', y; split; [exact EU1|]; split; [exact A|]; split; [exact V|]; split; [exact F|].
    unfold damped_factor; destruct Y as [->|[_ ->]]; eapply near_le; try exact Nw; try exact NM; lra.
Qed.

Lemma room : damped_factor q * rho + c / 2 <= rho.
Proof. unfold damped_factor; lra. Qed.

Lemma damped_bounds : 0 <= damped_factor q /\ damped_factor q < 1 /\ 0 <= c / 2.
Proof. pose proof q_pos; unfold damped_factor; lra. Qed.

Lemma bound_room k : bound (damped_factor q) (c / 2) rho k <= rho.
Proof.
  destruct damped_bounds as (D1 & _ & _); pose proof room.
  induction k as [|k IH]; cbn [bound]; [lra|].
  assert (damped_factor q * bound (damped_factor q) (c / 2) rho k <= damped_factor q * rho)
    by (apply Rmult_le_compat_l; lra); lra.
Qed.

(** Newton-Raphson *)
Definition newton_inv (rf : rootfinder XR) (x : vec R) (s : St) : Prop :=
  plain n conf NewtonRaphson rf /\ rf_parameters rf = p /\ rf_iters_params rf = its /\
  rf_valid_last rf = true /\ at_point x s.

Lemma newton_inv_step :
  (forall rf x s, rf_iters_params rf = its -> near n xs rho x -> at_point x s ->
     source rf x s (J x) (z x)) ->
  forall rf x s r, newton_inv rf x s -> 0 <= r <= rho -> near n xs r x ->
  exists rf' s' y, iteration M rf s = Ret (rf', s', Ok (lift (E y))) /\ newton_inv rf' y s' /\
    near n xs (damped_factor q * r + c / 2) y /\ rf_iter rf' = S (rf_iter rf).
Proof.
  intros HJ rf x s r (PL & EP & EI1 & HV & PA) Pr N.
  assert (Nr : near n xs rho x) by (apply near_le with r; [lra|exact N]).
  destruct (newton_closer x r Pr N) as (H & EH & NH).
  set (rf0 := set_iter rf (S (rf_iter rf))).
  assert (JS := HJ rf0 x s EI1 Nr PA).
  assert (PL' := PL); destruct PL' as (A1 & A2 & A3 & A4 & A6).
  destruct (step_at M n conf Good D L Rg U E WB rf0 x s (J x) (z x) A1 A2 A3 A4
    ltac:(left; cbn; rewrite A6; reflexivity) PA JS) as (s1 & P1 & EQ).
  rewrite EH in EQ; destruct EQ as (_ & _ & _ & _ & ES).
  destruct (closer NewtonRaphson (set_jacobian rf0 (exact_jacobian (J x) H)) s1 (z x)
    (newton_point U H x) r c PL eq_refl P1 Pr ltac:(lra) (HZ x r Pr N) NH)
    as (rf' & s' & y & EU1 & PY & V & (F1 & F2 & F3 & F4 & F5 & F6) & NY).
  cbn in F1, F2, F3, F4, F5.
  exists rf', s', y; split; [unfold iteration; fold rf0; rewrite ES; cbn [bind]; exact EU1|].
  split; [|split; [exact NY|exact F5]].
  unfold newton_inv, plain; rewrite F1, F2, F3, F4; repeat split; auto; apply PY.
Qed.

Lemma newton_drawn rf s x0 maxit :
  (forall rf x s, rf_iters_params rf = its -> near n xs rho x -> at_point x s ->
     source rf x s (J x) (z x)) ->
  plain n conf NewtonRaphson rf -> rf_parameters rf = p -> rf_iters_params rf = its ->
  rf_valid_last rf = true -> rf_iter rf = O -> rf_initial_guess rf = lift x0 ->
  sp_max_iter p = maxit -> Good s -> near n xs rho x0 ->
  exists rf' s' y, get_iteratives M s' = lift y /\ near n xs rho y /\
    near n xs (bound (damped_factor q) (c / 2) rho (rf_iter rf')) y /\ (rf_iter rf' <= maxit)%nat /\
    (solve M rf s = Ret (rf', s', Ok tt) /\ amax (U y) <= tol \/
     solve M rf s = Ret (rf', s', Err NonConvergenceError) /\ amax (U y) > tol /\
     rf_iter rf' = maxit) /\
    forall K, (K <= maxit)%nat -> lam * bound (damped_factor q) (c / 2) rho K <= tol ->
      solve M rf s = Ret (rf', s', Ok tt) /\ (rf_iter rf' <= K)%nat.
Proof.
  intros HJ PL EP EI1 HV H0 HG HM Gs Nx; destruct damped_bounds as (D1 & D2 & D3).
  destruct (at_pos _ _ _ _ _ _ _ _ _ HA) as (R0 & _ & _ & _ & Pl).
  destruct (drawn_solve M n conf Good D L Rg U E WB xs rho lam (damped_factor q) (c / 2) tol
    D1 D3 room small_errors newton_inv maxit) with (rf := rf) (s := s) (x0 := x0)
    as (rf' & s' & y & G & DY & NY & B & OUT & FAST); auto; try apply PL.
  - intros rf1 x s1 (_ & EP1 & _ & V1 & A1); rewrite EP1; auto.
  - intros rf1 x s1 r I1 Pr N _; apply newton_inv_step with x; assumption.
  - apply near_D with rho; [lra|exact Nx].
  - intros s1 P1; split; [exact PL|]; auto.
  - cbv beta in OUT; rewrite amax_vabs in OUT; exists rf', s', y; split; [exact G|]; split; [|auto].
    eapply near_le; [|exact NY]; apply bound_room.
Qed.

(** Stationary Newton: the jacobian of the starting point is kept *)
Context (x0 : vec R) (H : mat R).
Definition stationary_inv (rf : rootfinder XR) (x : vec R) (s : St) : Prop :=
  plain n conf (QuasiNewton StationaryNewton) rf /\ rf_parameters rf = p /\ rf_iters_params rf = its /\
  rf_valid_last rf = true /\ at_point x s /\
  (jm_compute_at_next (rf_jacobian rf) = true /\ x = x0 \/
   rf_jacobian rf = exact_jacobian (J x0) H).

Lemma stationary_inv_step :
  (forall rf s, rf_iters_params rf = its -> at_point x0 s -> source rf x0 s (J x0) (z x0)) ->
  (forall x, J x = J x0) -> lu_inverse (J x0) = Some H -> is_mat n H ->
  forall rf x s r, stationary_inv rf x s -> 0 <= r <= rho -> near n xs r x ->
  exists rf' s' y, iteration M rf s = Ret (rf', s', Ok (lift (E y))) /\ stationary_inv rf' y s' /\
    near n xs (damped_factor q * r + c / 2) y /\ rf_iter rf' = S (rf_iter rf).
Proof.
  intros HJ JC EH MH rf x s r (PL & EP & EI1 & HV & PA & ST) Pr N.
  destruct (newton_closer x r Pr N) as (H' & EH' & NH).
  rewrite JC, EH in EH'; injection EH' as <-.
  set (rf0 := set_iter rf (S (rf_iter rf))).
  assert (PL' := PL); destruct PL' as (A1 & A2 & A3 & A4 & A6).
  assert (ES : exists s1 zz e, at_point zz s1 /\ 0 <= e <= c /\ near n xs (r + e) zz /\
    compute_step M rf0 s
    = Ret (set_jacobian rf0 (exact_jacobian (J x0) H), s1, Ok (lift (newton_point U H x)))).
  { destruct ST as [[CJ ->]|KJ].
    - destruct (step_at M n conf Good D L Rg U E WB rf0 x0 s (J x0) (z x0) A1 A2 A3 A4
        ltac:(right; exact CJ) PA (HJ rf0 s EI1 PA)) as (s1 & P1 & EQ).
      rewrite EH in EQ; destruct EQ as (_ & _ & _ & _ & ES).
      exists s1, (z x0), c; split; [exact P1|]; split; [lra|]; split; [apply HZ; assumption|exact ES].
    - exists s, x, 0; split; [exact PA|]; split; [lra|].
      split; [eapply near_le; [|exact N]; lra|].
      set (rf1 := set_jacobian rf0 (exact_jacobian (J x0) H)).
      assert (R1 : rf0 = rf1) by (unfold rf1, rf0; rewrite <- KJ; destruct rf; reflexivity).
      assert (EN : compute_next_from_inv_jac M rf1 s = Ret (lift (newton_point U H x))).
      { apply (next_at M n conf Good D L Rg U E WB); auto. }
      unfold compute_step; change (rf_parameters rf0) with (rf_parameters rf).
      rewrite A6; unfold compute_quasi_newton_step, evaluate_jacobian_quasi_newton_step.
      replace (jm_compute_at_next (rf_jacobian rf0)) with false
        by (change (rf_jacobian rf0) with (rf_jacobian rf); rewrite KJ; reflexivity).
      cbn [approximate_step bind]; unfold when_debug.
      replace (rf_debug rf0) with false by (symmetry; exact A1); cbn [bind].
      rewrite <- R1 in EN |- *; rewrite EN; reflexivity. }
  destruct ES as (s1 & zz & e & P1 & Pe & Nz & ES).
  destruct (closer (QuasiNewton StationaryNewton) (set_jacobian rf0 (exact_jacobian (J x0) H)) s1 zz
    (newton_point U H x) r e PL eq_refl P1 Pr Pe Nz NH)
    as (rf' & s' & y & EU1 & PY & V & (F1 & F2 & F3 & F4 & F5 & F6) & NY).
  cbn in F1, F2, F3, F4, F5.
  exists rf', s', y; split; [unfold iteration; fold rf0; rewrite ES; cbn [bind]; exact EU1|].
  split; [|split; [eapply near_le; [|exact NY]; lra|exact F5]].
  unfold stationary_inv, plain; rewrite F1, F2, F3, F4; repeat split; auto; try apply PY.
Qed.

Lemma stationary_drawn rf s maxit :
  (forall rf s, rf_iters_params rf = its -> at_point x0 s -> source rf x0 s (J x0) (z x0)) ->
  (forall x, J x = J x0) -> lu_inverse (J x0) = Some H -> is_mat n H ->
  plain n conf (QuasiNewton StationaryNewton) rf -> rf_parameters rf = p -> rf_iters_params rf = its ->
  rf_valid_last rf = true -> jm_compute_at_next (rf_jacobian rf) = true ->
  rf_iter rf = O -> rf_initial_guess rf = lift x0 ->
  sp_max_iter p = maxit -> Good s -> near n xs rho x0 ->
  exists rf' s' y, get_iteratives M s' = lift y /\ near n xs rho y /\
    near n xs (bound (damped_factor q) (c / 2) rho (rf_iter rf')) y /\ (rf_iter rf' <= maxit)%nat /\
    (solve M rf s = Ret (rf', s', Ok tt) /\ amax (U y) <= tol \/
     solve M rf s = Ret (rf', s', Err NonConvergenceError) /\ amax (U y) > tol /\
     rf_iter rf' = maxit) /\
    forall K, (K <= maxit)%nat -> lam * bound (damped_factor q) (c / 2) rho K <= tol ->
      solve M rf s = Ret (rf', s', Ok tt) /\ (rf_iter rf' <= K)%nat.
Proof.
  intros HJ JC EH MH PL EP EI1 HV CJ H0 HG HM Gs Nx; destruct damped_bounds as (D1 & D2 & D3).
  destruct (at_pos _ _ _ _ _ _ _ _ _ HA) as (R0 & _ & _ & _ & Pl).
  destruct (drawn_solve M n conf Good D L Rg U E WB xs rho lam (damped_factor q) (c / 2) tol
    D1 D3 room small_errors stationary_inv maxit) with (rf := rf) (s := s) (x0 := x0)
    as (rf' & s' & y & G & DY & NY & B & OUT & FAST); auto; try apply PL.
  - intros rf1 x s1 (_ & EP1 & _ & V1 & A1 & _); rewrite EP1; auto.
  - intros rf1 x s1 r I1 Pr N _; apply stationary_inv_step with x; assumption.
  - apply near_D with rho; [lra|exact Nx].
  - intros s1 P1; split; [exact PL|]; auto 10.
  - cbv beta in OUT; rewrite amax_vabs in OUT; exists rf', s', y; split; [exact G|]; split; [|auto].
    eapply near_le; [|exact NY]; apply bound_room.
Qed.
End Drawn.

(** What a run drawn to the root [xs] does: it stays within [rho], its distance
    to the root is at most [q ^ k rho + c] after [k] iterations, it either
    reports success with residuals within the tolerance or spends all its
    iterations, and it succeeds within [K] iterations as soon as [K] iterations
    bring the bound on the residuals below the tolerance. *)
Definition drawn {EI EU} (n : nat) (f : vec R -> vec R) (xs : vec R) (rho lam q c tol : R) (maxit : nat)
  (r : outcome (rootfinder XR * user_model XR * result unit (solver_error EI EU))) : Prop :=
  exists rf' s' y,
    um_inputs s' = lift y /\ near n xs rho y /\ near n xs (q ^ rf_iter rf' * rho + c) y /\
    (rf_iter rf' <= maxit)%nat /\
    (r = Ret (rf', s', Ok tt) /\ (forall i, (i < n)%nat -> Rabs (vent (f y) i) <= tol) \/
     r = Ret (rf', s', Err NonConvergenceError) /\ rf_iter rf' = maxit /\ amax (f y) > tol) /\
    forall K, (K <= maxit)%nat -> lam * (q ^ K * rho + c) <= tol ->
      r = Ret (rf', s', Ok tt) /\ (rf_iter rf' <= K)%nat.

Lemma pack_drawn {EI EU} n f (U : vec R -> vec R) xs rho lam q c tol maxit
  (r : outcome (rootfinder XR * user_model XR * result unit (solver_error EI EU))) :
  (forall x, near n xs rho x -> U x = f x) -> (forall x, near n xs rho x -> length (f x) = n) ->
  0 <= lam -> 0 <= q < 1 -> 0 <= c ->
  (exists rf' s' y, um_inputs s' = lift y /\ near n xs rho y /\
    near n xs (bound (damped_factor q) (c / 2) rho (rf_iter rf')) y /\ (rf_iter rf' <= maxit)%nat /\
    (r = Ret (rf', s', Ok tt) /\ amax (U y) <= tol \/
     r = Ret (rf', s', Err NonConvergenceError) /\ amax (U y) > tol /\ rf_iter rf' = maxit) /\
    forall K, (K <= maxit)%nat -> lam * bound (damped_factor q) (c / 2) rho K <= tol ->
      r = Ret (rf', s', Ok tt) /\ (rf_iter rf' <= K)%nat) ->
  drawn n f xs rho lam (damped_factor q) (c / (1 - q)) tol maxit r.
Proof.
  intros HU HL Pl Pq Pc (rf' & s' & y & G & N1 & N2 & B & OUT & FAST).
  assert (RQ : forall k, bound (damped_factor q) (c / 2) rho k
    <= damped_factor q ^ k * rho + c / (1 - q)).
  { intros k; eapply Rle_trans; [apply bound_limit; unfold damped_factor; lra|].
    apply Req_le; f_equal; unfold damped_factor; field; lra. }
  rewrite HU in OUT by exact N1; exists rf', s', y; split; [exact G|]; split; [exact N1|].
  split; [eapply near_le; [apply RQ|exact N2]|]; split; [exact B|]; split.
  - destruct OUT as [[O1 O2]|(O1 & O2 & O3)]; [left|right; auto].
    split; [exact O1|]; intros i Hi.
    apply amax_le with (t := tol); [|exact O2|rewrite (HL y N1); exact Hi].
    pose proof (amax_nonneg (f y)); lra.
  - intros K HK BK; apply FAST; [exact HK|]; eapply Rle_trans; [|exact BK].
    apply Rmult_le_compat_l; [exact Pl|apply RQ].
Qed.

Lemma last_near n xs rho delta its step x r : small_steps n its (near n xs rho) step delta ->
  r <= rho -> 0 <= delta -> near n xs r x -> near n xs (r + delta) (fd_last n x (step x)).
Proof.
  intros ST Le Pd N; unfold fd_last; destruct n as [|k]; [eapply near_le; [|exact N]; lra|].
  destruct (ST x ltac:(eapply near_le; [exact Le|exact N])) as (_ & _ & S1).
  destruct (S1 k ltac:(lia)) as [_ S2].
  apply near_trans with x; [exact N|].
  eapply near_le; [exact S2|]; apply near_shift; exact (proj1 N).
Qed.

(** With the jacobian given: each iteration brings the variables closer to the
    root by a fixed factor, whether or not damping is asked for. *)
Theorem C85_newton : forall n func jac (f : vec R -> vec R) (J : vec R -> mat R)
  xs rho ell b mu x0 tol maxit damping rf,
  (forall x, near n xs rho x -> func (lift x) = lift (f x)) ->
  (forall x, near n xs rho x -> jac (lift x) = liftm (J x)) ->
  regular_root n f J xs rho ell b mu ->
  spread n b ell rho < 1 / 2 ->
  near n xs rho x0 ->
  rootfinder_new (mkSolverParameters n (Fin tol) maxit NewtonRaphson damping) (lift x0)
    (jac_iteratives n) (all_abs n) = Ret rf ->
  drawn n f xs rho (INR n * (mu + ell * rho)) (damped_factor (ratio (spread n b ell rho))) 0 tol maxit
    (solve (model_from_function_and_jacobian func jac) rf (user_model_new n)).
Proof.
  intros n func jac f J xs rho ell b mu x0 tol maxit damping rf Hf HJ RR SP Nx HN; apply new_fields in HN.
  destruct (rr_pos _ _ _ _ _ _ _ _ RR) as (P1 & P2 & P3 & P4).
  assert (Pn : 0 <= INR n) by apply pos_INR.
  assert (P5 : 0 <= ell * rho) by (apply Rmult_le_pos; assumption).
  assert (S0 : 0 <= spread n b ell rho) by (apply spread_pos; assumption).
  set (D := near n xs rho).
  assert (Hf' : forall x, D x -> length x = n -> func (lift x) = lift (f x) /\ length (f x) = n)
    by (intros x Dx _; split; [apply Hf, Dx|exact (rr_fun _ _ _ _ _ _ _ _ RR x Dx)]).
  assert (HJ' : forall x, D x -> length x = n -> jac (lift x) = liftm (J x) /\ is_mat n (J x))
    by (intros x Dx _; split; [apply HJ, Dx|exact (rr_mat _ _ _ _ _ _ _ _ RR x Dx)]).
  assert (FP := adapter_problem n D func f Hf' (fun _ => true) (um_get_jacobian jac)).
  assert (WB := abs_well_behaved _ n _ _ _ _ FP).
  assert (HA := adapter_analytic n D func f Hf' jac J HJ').
  set (M := model_from_function_and_jacobian func jac) in *.
  set (U := residuals_of f (fun _ => vzeros n)) in *.
  assert (EU : forall x, length x = n -> near n xs rho x -> U x = f x).
  { intros x _ N; apply residuals_of_zero; exact (rr_fun _ _ _ _ _ _ _ _ RR x N). }
  assert (AT := regular_attracting n f J xs rho ell b mu U RR EU ltac:(lra)).
  set (beta := b / (1 - spread n b ell rho)) in *.
  set (q := ratio (spread n b ell rho)).
  assert (FQ : factor beta (INR n * ell) 0 rho = q).
  { unfold factor, q, ratio, beta, spread; field; fold (spread n b ell rho); unfold spread in *; lra. }
  assert (QB : 0 <= q < 1) by (apply ratio_bounds; lra).
  assert (PL : plain n (all_abs n) NewtonRaphson rf).
  { subst rf; repeat split; [apply default_jac_unlimited|].
    cbn [rf_iters_params]; unfold jac_iteratives, default_vec_iteratives.
    rewrite map_length, repeat_length; reflexivity. }
  replace 0 with (0 / (1 - q)) at 1 by (field; lra).
  apply (pack_drawn n f U); auto; try lra.
  { intros x N; apply EU; [exact (proj1 N)|exact N]. }
  { exact (rr_fun _ _ _ _ _ _ _ _ RR). }
  { apply Rmult_le_pos; lra. }
  apply (newton_drawn M n (all_abs n) (adapter_good n) D f (fun _ => vzeros n) U WB
    (jac_iteratives n) J (fun x => x) xs rho beta (INR n * ell) 0 (INR n * (mu + ell * rho)) AT
    (mkSolverParameters n (Fin tol) maxit NewtonRaphson damping) tol q 0) with (x0 := x0);
    auto; try (subst rf; reflexivity); try lra.
  - apply Rmult_le_pos; lra.
  - intros x N; unfold D; rewrite Rplus_0_r in N; exact N.
  - intros x r _ N; rewrite Rplus_0_r; exact N.
  - intros rf1 x s _ _ _; left; exists J; auto.
  - apply fresh_good.
Qed.
Print Assumptions C85_newton.

(** When the conditioning allows it, damping never steps in and the convergence
    is quadratic. *)
Theorem C85_quadratic : forall n func jac (f : vec R -> vec R) (J : vec R -> mat R)
  xs rho ell b mu x0 tol maxit damping rf,
  (forall x, near n xs rho x -> func (lift x) = lift (f x)) ->
  (forall x, near n xs rho x -> jac (lift x) = liftm (J x)) ->
  regular_root n f J xs rho ell b mu ->
  let c := spread n b ell rho in
  c < 1 / 2 -> INR n * (mu + ell * rho) * b * c <= (1 - 2 * c) * (1 - c) ->
  near n xs rho x0 ->
  rootfinder_new (mkSolverParameters n (Fin tol) maxit NewtonRaphson damping) (lift x0)
    (jac_iteratives n) (all_abs n) = Ret rf ->
  let q := ratio c in
  exists rf' s' y,
    um_inputs s' = lift y /\ near n xs (q ^ (2 ^ rf_iter rf' - 1) * rho) y /\
    (rf_iter rf' <= maxit)%nat /\
    (solve (model_from_function_and_jacobian func jac) rf (user_model_new n)
     = Ret (rf', s', Ok tt) /\ (forall i, (i < n)%nat -> Rabs (vent (f y) i) <= tol) \/
     solve (model_from_function_and_jacobian func jac) rf (user_model_new n)
     = Ret (rf', s', Err NonConvergenceError) /\ rf_iter rf' = maxit /\
     amax (f y) > tol) /\
    forall K, (K <= maxit)%nat ->
      INR n * (mu + ell * rho) * (q ^ (2 ^ K - 1) * rho) <= tol ->
      solve (model_from_function_and_jacobian func jac) rf (user_model_new n)
      = Ret (rf', s', Ok tt) /\ (rf_iter rf' <= K)%nat.
Proof.
  intros n func jac f J xs rho ell b mu x0 tol maxit damping rf Hf HJ RR c SP CD Nx HN.
  apply (quadratic_run n func jac f J xs rho ell b mu x0 tol maxit damping rf); auto.
Qed.
Print Assumptions C85_quadratic.

(** With the jacobian computed by finite differences, the variables the damping
    starts from are those of the last perturbation: the run comes within the
    size of the perturbations. *)
Theorem C85_newton_fd : forall n func (f : vec R -> vec R) (J : vec R -> mat R)
  xs rho delta ell b mu x0 tol maxit damping its step rf,
  (forall x, near n xs (rho + delta) x -> func (lift x) = lift (f x)) ->
  regular_root n f J xs (rho + delta) ell b mu -> 0 <= rho -> 0 <= delta ->
  Forall unlimited its -> length its = n -> small_steps n its (near n xs rho) step delta ->
  spread n b ell (rho + delta) < 1 / 2 ->
  delta <= (1 - ratio (spread n b ell (rho + delta))) * rho ->
  near n xs rho x0 ->
  rootfinder_new (mkSolverParameters n (Fin tol) maxit NewtonRaphson damping) (lift x0)
    its (all_abs n) = Ret rf ->
  let q := ratio (spread n b ell (rho + delta)) in
  drawn n f xs rho (INR n * (mu + ell * (rho + delta))) (damped_factor q) (delta / (1 - q)) tol maxit
    (solve (model_from_function func) rf (user_model_new n)).
Proof.
  intros n func f J xs rho delta ell b mu x0 tol maxit damping its step rf Hf RR P0 Pd UL LI ST SP RM Nx HN q.
  apply new_fields in HN.
  destruct (rr_pos _ _ _ _ _ _ _ _ RR) as (P1 & P2 & P3 & P4).
  assert (Pn : 0 <= INR n) by apply pos_INR.
  assert (P5 : 0 <= ell * (rho + delta)) by (apply Rmult_le_pos; assumption).
  assert (S0 : 0 <= spread n b ell (rho + delta)) by (apply spread_pos; assumption).
  set (D := near n xs (rho + delta)).
  assert (Hf' : forall x, D x -> length x = n -> func (lift x) = lift (f x) /\ length (f x) = n)
    by (intros x Dx _; split; [apply Hf, Dx|exact (rr_fun _ _ _ _ _ _ _ _ RR x Dx)]).
  assert (FP := adapter_problem n D func f Hf' default_jacobian_provided (default_get_jacobian um_inputs)).
  assert (WB := abs_well_behaved _ n _ _ _ _ FP).
  change (mkModel um_problem_size um_set_iteratives um_inputs (um_evaluate func) um_get_residuals
    default_jacobian_provided (default_get_jacobian um_inputs) default_get_memory default_set_memory
    show_infallible show_infallible) with (model_from_function func) in WB.
  set (M := model_from_function func) in *.
  set (U := residuals_of f (fun _ => vzeros n)) in *.
  assert (EU : forall x, length x = n -> near n xs (rho + delta) x -> U x = f x).
  { intros x _ N; apply residuals_of_zero; exact (rr_fun _ _ _ _ _ _ _ _ RR x N). }
  assert (NB : forall x, near n xs rho x -> D x)
    by (intros x N; apply near_le with rho; [lra|exact N]).
  assert (FPT : forall x, near n xs rho x -> fd_points n D x (step x)).
  { intros x N j Hj; apply (fd_near n xs rho delta its step ST); auto using within_self. }
  assert (FDE : forall x i j, near n xs rho x -> (i < n)%nat -> (j < n)%nat ->
    ment (fd_matrix n U x (step x)) i j
    = (vent (U (shift x j (vent (step x) j))) i - vent (U x) i) / vent (step x) j).
  { intros x i j N Hi Hj; apply (fd_matrix_entry M n _ _ D _ _ U _ WB); auto; exact (proj1 N). }
  assert (AT := fd_attracting n f J xs rho delta ell b mu its step RR P0 Pd ST U EU FDE ltac:(lra)).
  set (beta := b / (1 - spread n b ell (rho + delta))) in *.
  assert (FQ : factor beta (INR n * ell) (INR n * (ell * delta)) rho = q).
  { unfold factor, q, ratio, beta, spread; field; fold (spread n b ell (rho + delta)); unfold spread in *; lra. }
  assert (QB : 0 <= q < 1) by (apply ratio_bounds; lra).
  assert (PL : plain n (all_abs n) NewtonRaphson rf) by (subst rf; repeat split; assumption).
  apply (pack_drawn n f U); auto; try lra.
  { intros x N; apply EU; [exact (proj1 N)|apply NB, N]. }
  { intros x N; apply (rr_fun _ _ _ _ _ _ _ _ RR), NB, N. }
  { apply Rmult_le_pos; lra. }
  apply (newton_drawn M n (all_abs n) (adapter_good n) D f (fun _ => vzeros n) U WB
    its (fun x => fd_matrix n U x (step x)) (fun x => fd_last n x (step x)) xs rho beta
    (INR n * ell) (INR n * (ell * delta)) (INR n * (mu + ell * (rho + delta))) AT
    (mkSolverParameters n (Fin tol) maxit NewtonRaphson damping) tol q delta) with (x0 := x0);
    auto; try (subst rf; reflexivity); try lra.
  - intros x r Pr N; apply last_near with (rho := rho) (its := its); auto; lra.
  - intros rf1 x s E1 N _; right; exists (step x); rewrite E1.
    destruct (ST x N) as (T1 & T2 & T3).
    split; [reflexivity|]; split; [|split; reflexivity].
    split; [exact T1|]; split; [exact T2|]; split; [intros; apply T3; assumption|apply FPT; exact N].
  - apply fresh_good.
Qed.
Print Assumptions C85_newton_fd.

(** The stationary Newton method *)
Theorem C85_stationary : forall n func jac (f : vec R -> vec R) (J : vec R -> mat R)
  xs rho ell b mu x0 tol maxit damping rf,
  (forall x, near n xs rho x -> func (lift x) = lift (f x)) ->
  (forall x, near n xs rho x -> jac (lift x) = liftm (J x)) ->
  regular_root n f J xs rho ell b mu ->
  spread n b ell rho < 1 / 3 ->
  near n xs rho x0 ->
  rootfinder_new (mkSolverParameters n (Fin tol) maxit (QuasiNewton StationaryNewton) damping) (lift x0)
    (jac_iteratives n) (all_abs n) = Ret rf ->
  drawn n f xs rho (INR n * (mu + ell * rho)) (damped_factor (2 * ratio (spread n b ell rho))) 0
    tol maxit (solve (model_from_function_and_jacobian func jac) rf (user_model_new n)).
Proof.
  intros n func jac f J xs rho ell b mu x0 tol maxit damping rf Hf HJ RR SP Nx HN; apply new_fields in HN.
  destruct (rr_pos _ _ _ _ _ _ _ _ RR) as (P1 & P2 & P3 & P4).
  assert (Pn : 0 <= INR n) by apply pos_INR.
  assert (P5 : 0 <= ell * rho) by (apply Rmult_le_pos; assumption).
  assert (S0 : 0 <= spread n b ell rho) by (apply spread_pos; assumption).
  set (D := near n xs rho).
  assert (Hf' : forall x, D x -> length x = n -> func (lift x) = lift (f x) /\ length (f x) = n)
    by (intros x Dx _; split; [apply Hf, Dx|exact (rr_fun _ _ _ _ _ _ _ _ RR x Dx)]).
  assert (HJ' : forall x, D x -> length x = n -> jac (lift x) = liftm (J x) /\ is_mat n (J x))
    by (intros x Dx _; split; [apply HJ, Dx|exact (rr_mat _ _ _ _ _ _ _ _ RR x Dx)]).
  assert (FP := adapter_problem n D func f Hf' (fun _ => true) (um_get_jacobian jac)).
  assert (WB := abs_well_behaved _ n _ _ _ _ FP).
  assert (HA := adapter_analytic n D func f Hf' jac J HJ').
  set (M := model_from_function_and_jacobian func jac) in *.
  set (U := residuals_of f (fun _ => vzeros n)) in *.
  assert (EU : forall x, near n xs rho x -> U x = f x).
  { intros x N; apply residuals_of_zero; exact (rr_fun _ _ _ _ _ _ _ _ RR x N). }
  assert (Z : rho + 0 = rho) by lra.
  assert (AT : attracting n U (fun _ => J x0) xs rho (b / (1 - spread n b ell (rho + 0))) (INR n * ell)
    (INR n * (ell * (rho + 0))) (INR n * (mu + ell * (rho + 0)))).
  { apply (kept_attracting n f J xs rho 0 ell b mu x0); rewrite ?Z; auto; try lra.
    - exact (rr_mat _ _ _ _ _ _ _ _ RR x0 Nx).
    - intros i j Hi Hj; exists x0; split; [exact Nx|]; split; [|reflexivity].
      apply near_refl; exact (proj1 Nx). }
  destruct (kept_factor n b ell rho 0 P3 P2 P1 ltac:(lra) ltac:(rewrite Z; exact SP)) as [K1 K2].
  rewrite Z in *.
  set (q := 2 * ratio (spread n b ell rho)) in *.
  assert (QB : 0 <= q) by (unfold q; pose proof (ratio_bounds (spread n b ell rho)); lra).
  assert (PL : plain n (all_abs n) (QuasiNewton StationaryNewton) rf).
  { subst rf; repeat split; [apply default_jac_unlimited|].
    cbn [rf_iters_params]; unfold jac_iteratives, default_vec_iteratives.
    rewrite map_length, repeat_length; reflexivity. }
  replace 0 with (0 / (1 - q)) at 1 by (field; lra).
  destruct (bounded_below_inverts n (J x0) _ (proj1 (at_mat _ _ _ _ _ _ _ _ _ AT x0 Nx))
    (proj2 (at_mat _ _ _ _ _ _ _ _ _ AT x0 Nx))) as (H & EH & SH & _).
  apply (pack_drawn n f U); auto; try lra.
  { exact (rr_fun _ _ _ _ _ _ _ _ RR). }
  { apply Rmult_le_pos; lra. }
  apply (stationary_drawn M n (all_abs n) (adapter_good n) D f (fun _ => vzeros n) U WB
    (jac_iteratives n) (fun _ => J x0) (fun x => x) xs rho _ _ _ _ AT
    (mkSolverParameters n (Fin tol) maxit (QuasiNewton StationaryNewton) damping) tol q 0)
    with (x0 := x0) (H := H);
    auto; try (subst rf; reflexivity); try lra.
  - apply Rmult_le_pos; lra.
  - intros x N; unfold D; rewrite Rplus_0_r in N; exact N.
  - intros x r _ N; rewrite Rplus_0_r; exact N.
  - intros rf1 s _ _; left; exists J; auto.
  - apply fresh_good.
Qed.
Print Assumptions C85_stationary.

(** ... and by finite differences: only the first iteration perturbs the
    variables. *)
Theorem C85_stationary_fd : forall n func (f : vec R -> vec R) (J : vec R -> mat R)
  xs rho delta ell b mu x0 tol maxit damping its step rf,
  (forall x, near n xs (rho + delta) x -> func (lift x) = lift (f x)) ->
  regular_root n f J xs (rho + delta) ell b mu -> 0 <= rho -> 0 <= delta ->
  Forall unlimited its -> length its = n -> small_steps n its (near n xs rho) step delta ->
  spread n b ell (rho + delta) < 1 / 3 ->
  delta <= (1 - 2 * ratio (spread n b ell (rho + delta))) * rho ->
  near n xs rho x0 ->
  rootfinder_new (mkSolverParameters n (Fin tol) maxit (QuasiNewton StationaryNewton) damping) (lift x0)
    its (all_abs n) = Ret rf ->
  let q := 2 * ratio (spread n b ell (rho + delta)) in
  drawn n f xs rho (INR n * (mu + ell * (rho + delta))) (damped_factor q) (delta / (1 - q)) tol maxit
    (solve (model_from_function func) rf (user_model_new n)).
Proof.
  intros n func f J xs rho delta ell b mu x0 tol maxit damping its step rf Hf RR P0 Pd UL LI ST SP RM Nx HN q.
  apply new_fields in HN.
  destruct (rr_pos _ _ _ _ _ _ _ _ RR) as (P1 & P2 & P3 & P4).
  assert (Pn : 0 <= INR n) by apply pos_INR.
  assert (P5 : 0 <= ell * (rho + delta)) by (apply Rmult_le_pos; assumption).
  assert (S0 : 0 <= spread n b ell (rho + delta)) by (apply spread_pos; assumption).
  set (D := near n xs (rho + delta)).
  assert (Hf' : forall x, D x -> length x = n -> func (lift x) = lift (f x) /\ length (f x) = n)
    by (intros x Dx _; split; [apply Hf, Dx|exact (rr_fun _ _ _ _ _ _ _ _ RR x Dx)]).
  assert (FP := adapter_problem n D func f Hf' default_jacobian_provided (default_get_jacobian um_inputs)).
  assert (WB := abs_well_behaved _ n _ _ _ _ FP).
  change (mkModel um_problem_size um_set_iteratives um_inputs (um_evaluate func) um_get_residuals
    default_jacobian_provided (default_get_jacobian um_inputs) default_get_memory default_set_memory
    show_infallible show_infallible) with (model_from_function func) in WB.
  set (M := model_from_function func) in *.
  set (U := residuals_of f (fun _ => vzeros n)) in *.
  assert (EU : forall x, length x = n -> near n xs (rho + delta) x -> U x = f x).
  { intros x _ N; apply residuals_of_zero; exact (rr_fun _ _ _ _ _ _ _ _ RR x N). }
  assert (NB : forall x, near n xs rho x -> D x)
    by (intros x N; apply near_le with rho; [lra|exact N]).
  assert (FPT : forall x, near n xs rho x -> fd_points n D x (step x)).
  { intros x N j Hj; apply (fd_near n xs rho delta its step ST); auto using within_self. }
  assert (FDE : forall x i j, near n xs rho x -> (i < n)%nat -> (j < n)%nat ->
    ment (fd_matrix n U x (step x)) i j
    = (vent (U (shift x j (vent (step x) j))) i - vent (U x) i) / vent (step x) j).
  { intros x i j N Hi Hj; apply (fd_matrix_entry M n _ _ D _ _ U _ WB); auto; exact (proj1 N). }
  set (A := fd_matrix n U x0 (step x0)).
  assert (AT := kept_attracting n f J xs rho delta ell b mu x0 A U RR P0 Pd EU Nx
    (fd_matrix_is_mat n U x0 (step x0))
    (fun i j => fd_entry_is_partial n f J xs rho delta ell b mu its step RR Pd ST U EU FDE x0 i j Nx)
    ltac:(lra)).
  destruct (kept_factor n b ell rho delta P3 P2 P0 Pd SP) as [K1 K2].
  fold q in K1, K2, RM.
  assert (QB : 0 <= q) by (unfold q; pose proof (ratio_bounds (spread n b ell (rho + delta))); lra).
  assert (PL : plain n (all_abs n) (QuasiNewton StationaryNewton) rf) by (subst rf; repeat split; assumption).
  destruct (bounded_below_inverts n A _ (proj1 (at_mat _ _ _ _ _ _ _ _ _ AT x0 Nx))
    (proj2 (at_mat _ _ _ _ _ _ _ _ _ AT x0 Nx))) as (H & EH & SH & _).
  apply (pack_drawn n f U); auto; try lra.
  { intros x N; apply EU; [exact (proj1 N)|apply NB, N]. }
  { intros x N; apply (rr_fun _ _ _ _ _ _ _ _ RR), NB, N. }
  { apply Rmult_le_pos; lra. }
  apply (stationary_drawn M n (all_abs n) (adapter_good n) D f (fun _ => vzeros n) U WB
    its (fun _ => A) (fun x => fd_last n x (step x)) xs rho _ _ _ _ AT
    (mkSolverParameters n (Fin tol) maxit (QuasiNewton StationaryNewton) damping) tol q delta)
    with (x0 := x0) (H := H);
    auto; try (subst rf; reflexivity); try lra.
  - intros x r Pr N; apply last_near with (rho := rho) (its := its); auto; lra.
  - intros rf1 s E1 _; right; exists (step x0); rewrite E1.
    destruct (ST x0 Nx) as (T1 & T2 & T3).
    split; [reflexivity|]; split; [|split; reflexivity].
    split; [exact T1|]; split; [exact T2|]; split; [intros; apply T3; assumption|apply FPT; exact Nx].
  - apply fresh_good.
Qed.
Print Assumptions C85_stationary_fd.

(** Broyden's problem 9 with damping: from within 1/400 of the solution (1, 1),
    at most 29 iterations for residuals of at most 10^-6. *)
Example C85_case : forall x0 maxit damping rf, near 2 [1; 1] (1 / 400) x0 -> (29 <= maxit)%nat ->
  rootfinder_new (mkSolverParameters 2 (Fin (1 / 1000000)) maxit NewtonRaphson damping)
    (lift x0) (jac_iteratives 2) (all_abs 2) = Ret rf ->
  exists rf' s' y,
    solve (model_from_function_and_jacobian case9 case9_jac) rf (user_model_new 2)
    = Ret (rf', s', Ok tt) /\ (rf_iter rf' <= 29)%nat /\ um_inputs s' = lift y /\
    near 2 [1; 1] ((2 / 3) ^ rf_iter rf' * (1 / 400)) y.
Proof.
  intros x0 maxit damping rf Nx LM HN.
  assert (SP : spread 2 (21 / 10) 20 (1 / 400) = 21 / 100) by (unfold spread; cbn [INR]; lra).
  destruct (C85_newton 2 case9 case9_jac case9 case9_jac [1; 1] (1 / 400) 20 (21 / 10) 20
    x0 (1 / 1000000) maxit damping rf) as (rf' & s' & y & G & _ & N & B & OUT & FAST).
  - intros x [Lx _]; destruct (len2 x Lx) as (a & c & ->); reflexivity.
  - intros x [Lx _]; destruct (len2 x Lx) as (a & c & ->); reflexivity.
  - apply case9_regular; lra.
  - rewrite SP; lra.
  - exact Nx.
  - exact HN.
  - rewrite SP in *.
    assert (Q : 0 <= damped_factor (ratio (21 / 100)) <= 2 / 3) by (unfold damped_factor, ratio; lra).
    destruct (FAST 29%nat LM) as [F1 F2].
    { apply Rle_trans with (INR 2 * (20 + 20 * (1 / 400)) * ((2 / 3) ^ 29 * (1 / 400) + 0)).
      - apply Rmult_le_compat_l; [cbn [INR]; lra|]; apply Rplus_le_compat_r, Rmult_le_compat_r; [lra|].
        apply pow_incr; exact Q.
      - cbn [INR pow]; lra. }
    exists rf', s', y; split; [exact F1|]; split; [exact F2|]; split; [exact G|].
    eapply near_le; [|exact N]; rewrite Rplus_0_r; apply Rmult_le_compat_r; [lra|].
    apply pow_incr; exact Q.
Qed.

Example C85_case_exists : exists rf, near 2 [1; 1] (1 / 400) [401 / 400; 399 / 400] /\
  rootfinder_new (mkSolverParameters 2 (Fin (1 / 1000000)) 29 NewtonRaphson true)
    (lift [401 / 400; 399 / 400]) (jac_iteratives 2) (all_abs 2) = Ret rf.
Proof.
  eexists; split; [|reflexivity].
  split; [reflexivity|]; intros [|[|i]] Hi; [| |lia]; unfold vent; cbn [nth];
    unfold Rabs; destruct Rcase_abs; lra.
Qed.

(** The same problem, from within 1/10000: at most 2 iterations, with damping. *)
Example C85_case_quadratic : forall x0 rf, near 2 [1; 1] (1 / 10000) x0 ->
  rootfinder_new (mkSolverParameters 2 (Fin (1 / 1000000)) 50 NewtonRaphson true)
    (lift x0) (jac_iteratives 2) (all_abs 2) = Ret rf ->
  exists rf' s' y,
    solve (model_from_function_and_jacobian case9 case9_jac) rf (user_model_new 2)
    = Ret (rf', s', Ok tt) /\ (rf_iter rf' <= 2)%nat /\ um_inputs s' = lift y.
Proof.
  intros x0 rf Nx HN.
  assert (SP : spread 2 (21 / 10) 20 (1 / 10000) = 21 / 2500) by (unfold spread; cbn [INR]; lra).
  destruct (C85_quadratic 2 case9 case9_jac case9 case9_jac [1; 1] (1 / 10000) 20 (21 / 10) 20
    x0 (1 / 1000000) 50 true rf) as (rf' & s' & y & G & N & B & OUT & FAST).
  - intros x [Lx _]; destruct (len2 x Lx) as (a & c & ->); reflexivity.
  - intros x [Lx _]; destruct (len2 x Lx) as (a & c & ->); reflexivity.
  - apply case9_regular; lra.
  - rewrite SP; lra.
  - rewrite SP; cbn [INR]; lra.
  - exact Nx.
  - exact HN.
  - rewrite SP in *; destruct (FAST 2%nat ltac:(lia)) as [F1 F2].
    { unfold ratio; cbn [INR pow Nat.pow Nat.mul Nat.add Nat.sub]; lra. }
    exists rf', s', y; auto.
Qed.
