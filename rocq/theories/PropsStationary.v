(** C69: the stationary Newton method near a root, in exact arithmetic and in
    every dimension. *)
From Coq Require Import Reals Lra.
From Verif Require Import Base Num Linalg Residuals Iteratives UserModel Jacobian Solver
  RNum LuFacts XR PropsQuasi PropsFD ExactFacts ExactRun PropsExact Props1d LocalFacts
  PropsLocal QuasiRun.
Open Scope R_scope.

Section Attracted.
Context {St EI EU : Type} (M : Model XR St EI EU) (n : nat) (conf : residuals_config)
  (Good : St -> Prop) (D : vec R -> Prop) (L Rg U : vec R -> vec R)
  (WB : well_behaved M n conf Good D L Rg U (fun x => vabs (U x)))
  (A : mat R) (xs : vec R) (rho beta kappa eta lam : R)
  (HA : attracting n U (fun _ => A) xs rho beta kappa eta lam)
  (HD : forall x, near n xs rho x -> D x).

Lemma stationary_attracted rf s x0 z tol :
  plain n conf (QuasiNewton StationaryNewton) rf -> sp_damping (rf_parameters rf) = false ->
  sp_tolerance (rf_parameters rf) = Fin tol -> jm_compute_at_next (rf_jacobian rf) = true ->
  rf_iter rf = O -> rf_valid_last rf = true -> rf_initial_guess rf = lift x0 -> Good s ->
  (forall s1, at_point M n Good D L Rg x0 s1 ->
     jacobian_source M n conf Good D L Rg U rf x0 s1 A z) ->
  factor beta kappa eta rho <= 1 -> near n xs rho x0 ->
  exists rf' s' y, get_iteratives M s' = lift y /\
    near n xs (radius beta kappa eta rho (rf_iter rf')) y /\ near n xs rho y /\
    (rf_iter rf' <= sp_max_iter (rf_parameters rf))%nat /\
    (solve M rf s = Ret (rf', s', Ok tt) /\ amax (U y) <= tol \/
     solve M rf s = Ret (rf', s', Err NonConvergenceError) /\ amax (U y) > tol /\
     rf_iter rf' = sp_max_iter (rf_parameters rf)) /\
    forall K, (K <= sp_max_iter (rf_parameters rf))%nat ->
      lam * radius beta kappa eta rho K <= tol ->
      solve M rf s = Ret (rf', s', Ok tt) /\ (rf_iter rf' <= K)%nat.
Proof.
  intros PL HDa HT CJ H0 HV HG Gs JS Fr Nx.
  assert (P0 : 0 <= rho <= rho).
  { destruct (at_pos _ _ _ _ _ _ _ _ _ HA) as (? & _); lra. }
  destruct (contract_step n U (fun _ => A) xs rho beta kappa eta lam HA x0 rho P0 Fr Nx)
    as (H & EH & _); cbv beta in EH.
  assert (SA : square n A) by (apply (at_mat _ _ _ _ _ _ _ _ _ HA x0 Nx)).
  destruct (C60_inverse n A H SA EH) as [MH _].
  assert (HP : forall x, near n xs rho x -> length x = n ->
    xltb (Fin tol) (Fin (amax (vabs (U x)))) = true ->
    near n xs rho (newton_point U H x) /\ D (newton_point U H x)).
  { intros x Px _ _.
    destruct (contract_step n U (fun _ => A) xs rho beta kappa eta lam HA x rho P0 Fr Px)
      as (H' & EH' & Nw); cbv beta in EH'; rewrite EH in EH'; injection EH' as <-.
    assert (near n xs rho (newton_point U H x)).
    { apply near_le with (factor beta kappa eta rho * rho); [|exact Nw].
      apply Rle_trans with (1 * rho); [apply Rmult_le_compat_r; lra|lra]. }
    split; [assumption|apply HD; assumption]. }
  assert (SOL := stationary_solve M n conf Good D L Rg U (fun x => vabs (U x)) WB H MH (Fin tol)
    (near n xs rho) HP rf s x0 A z PL HDa HT CJ H0 HV HG (proj1 Nx) Nx (HD _ Nx) Gs JS EH).
  destruct (contract_run n U (fun _ => A) xs rho beta kappa eta lam HA (fun x => amax (vabs (U x))) tol
    ltac:(intros; apply amax_vabs) (sp_max_iter (rf_parameters rf)) x0 rho P0 Fr Nx)
    as (k & y & ER & N1 & N2 & B1 & B2 & B3).
  rewrite (kept_newton_run U (fun x => vabs (U x)) H (Fin tol) A EH) in ER.
  destruct (kept_run U (fun x => vabs (U x)) H (Fin tol) (sp_max_iter (rf_parameters rf)) x0) as [k' y'].
  injection ER as -> ->.
  destruct SOL as (rf' & s' & SOL & SA' & SI).
  exists rf', s', y; rewrite SI; rewrite amax_vabs in SOL; cbn [xltb] in SOL.
  split; [apply SA'|]; split; [exact N1|]; split; [exact N2|]; split; [exact B1|].
  destruct (Rltb tol (amax (U y))) eqn:T.
  - apply Rltb_true in T; split.
    + right; split; [exact SOL|]; split; [lra|].
      destruct (Nat.eq_dec k (sp_max_iter (rf_parameters rf))) as [Q|Q]; [exact Q|].
      specialize (B2 ltac:(lia)); lra.
    + intros K HK BK; destruct (B3 K HK BK); lra.
  - apply Rltb_false in T; split; [left; split; [exact SOL|exact T]|].
    intros K HK BK; destruct (B3 K HK BK); split; [exact SOL|assumption].
Qed.
End Attracted.

(** A matrix whose entries are partial derivatives at points within [delta] of
    the start. *)
Lemma kept_attracting n f J xs rho delta ell b mu x0 A U :
  regular_root n f J xs (rho + delta) ell b mu -> 0 <= rho -> 0 <= delta ->
  (forall x, length x = n -> near n xs (rho + delta) x -> U x = f x) ->
  near n xs rho x0 -> square n A ->
  (forall i j, (i < n)%nat -> (j < n)%nat ->
     exists y, near n xs (rho + delta) y /\ near n x0 delta y /\ ment A i j = ment (J y) i j) ->
  spread n b ell (rho + delta) < 1 ->
  attracting n U (fun _ => A) xs rho (b / (1 - spread n b ell (rho + delta))) (INR n * ell)
    (INR n * (ell * (rho + delta))) (INR n * (mu + ell * (rho + delta))).
Proof.
  intros RR P0 Pd EU N0 SA HA SP; destruct (rr_pos _ _ _ _ _ _ _ _ RR) as (P1 & P2 & P3 & P4).
  assert (Pn : 0 <= INR n) by apply pos_INR.
  assert (P5 : 0 <= ell * (rho + delta)) by (apply Rmult_le_pos; assumption).
  assert (NB : forall x, near n xs rho x -> near n xs (rho + delta) x)
    by (intros x N; apply near_le with rho; [lra|exact N]).
  constructor.
  - exact (rr_len _ _ _ _ _ _ _ _ RR).
  - split; [exact P0|]; split; [apply div_pos; lra|].
    split; [apply Rmult_le_pos; assumption|]; split; apply Rmult_le_pos; lra.
  - intros x N; apply NB in N; rewrite EU by (try exact N; exact (proj1 N)).
    exact (rr_fun _ _ _ _ _ _ _ _ RR x N).
  - intros x N; split; [exact SA|].
    apply (bounded_below_perturbed n (J xs)); auto.
    + exact (rr_regular _ _ _ _ _ _ _ _ RR).
    + intros i j Hi Hj; destruct (HA i j Hi Hj) as (y & N1 & N2 & E).
      rewrite E; apply (rr_close n f J xs (rho + delta) ell b mu RR); auto.
  - intros x r N Pr Nr i Hi; rewrite EU by (try apply NB, N; exact (proj1 N)).
    replace ((INR n * ell * r + INR n * (ell * (rho + delta))) * r)
      with (INR n * (ell * (r + rho + delta)) * r) by lra.
    apply (linear_from_partials n (near n xs (rho + delta)) f J A xs x r (ell * (r + rho + delta))); auto.
    + exact (rr_partials _ _ _ _ _ _ _ _ RR).
    + exact (rr_len _ _ _ _ _ _ _ _ RR).
    + intros y Ny; apply near_le with r; [lra|exact Ny].
    + exact (rr_root _ _ _ _ _ _ _ _ RR).
    + intros y k l Ny Nx Hk Hl; destruct (HA k l Hk Hl) as (w & N1 & N2 & E).
      rewrite E; apply (rr_lipschitz _ _ _ _ _ _ _ _ RR); auto.
      * apply near_le with r; [lra|exact Ny].
      * exact (proj1 Ny).
      * apply near_trans with x0; [|exact N2].
        apply near_trans with xs; [|exact N0].
        apply near_sym; [exact (rr_len _ _ _ _ _ _ _ _ RR)|exact Ny].
  - intros x r N Pr Nr i Hi; rewrite EU by (try apply NB, N; exact (proj1 N)).
    apply (rr_small n f J xs (rho + delta) ell b mu RR); auto.
Qed.

Lemma kept_factor n b ell rho delta : 0 <= b -> 0 <= ell -> 0 <= rho -> 0 <= delta ->
  spread n b ell (rho + delta) < 1 / 3 ->
  factor (b / (1 - spread n b ell (rho + delta))) (INR n * ell) (INR n * (ell * (rho + delta))) rho
  <= 2 * ratio (spread n b ell (rho + delta)) /\ 2 * ratio (spread n b ell (rho + delta)) < 1.
Proof.
  intros Pb Pe Pr Pd SP.
  assert (Pn : 0 <= INR n) by apply pos_INR.
  assert (S0 : 0 <= spread n b ell (rho + delta)) by (apply spread_pos; lra).
  split.
  - unfold factor, ratio.
    assert (E : INR n * ell * rho + INR n * (ell * (rho + delta)) <= 2 * (INR n * (ell * (rho + delta)))).
    { assert (0 <= INR n * (ell * delta)) by (apply Rmult_le_pos; [|apply Rmult_le_pos]; assumption). lra. }
    apply Rle_trans with (b / (1 - spread n b ell (rho + delta)) * (2 * (INR n * (ell * (rho + delta))))).
    + apply Rmult_le_compat_l; [apply div_pos; lra|exact E].
    + apply Req_le; unfold spread; field; fold (spread n b ell (rho + delta)); unfold spread in *; lra.
  - unfold ratio; apply Rmult_lt_reg_r with (1 - spread n b ell (rho + delta)); [lra|].
    replace (2 * (spread n b ell (rho + delta) / (1 - spread n b ell (rho + delta))) *
      (1 - spread n b ell (rho + delta))) with (2 * spread n b ell (rho + delta)) by (field; lra); lra.
Qed.

(** The outcome of a stationary Newton solve near a root: the distance after [k]
    iterations is at most [q^k rho]; [Ok] as soon as the residuals must be within
    the tolerance, and no jacobian error. *)
Definition attracted {EI EU} (n : nat) (f : vec R -> vec R) (xs : vec R) (rho lam q tol : R) (maxit : nat)
  (r : outcome (rootfinder XR * user_model XR * result unit (solver_error EI EU))) : Prop :=
  exists rf' s' y,
    um_inputs s' = lift y /\ near n xs (q ^ rf_iter rf' * rho) y /\ (rf_iter rf' <= maxit)%nat /\
    (r = Ret (rf', s', Ok tt) /\ (forall i, (i < n)%nat -> Rabs (vent (f y) i) <= tol) \/
     r = Ret (rf', s', Err NonConvergenceError) /\ rf_iter rf' = maxit /\ amax (f y) > tol) /\
    forall K, (K <= maxit)%nat -> lam * (q ^ K * rho) <= tol ->
      r = Ret (rf', s', Ok tt) /\ (rf_iter rf' <= K)%nat.

(** Packing of the conclusion of [stationary_attracted]. *)
Lemma pack_attracted {EI EU} n f (U : vec R -> vec R) xs rho beta kappa eta lam q tol maxit A
  (r : outcome (rootfinder XR * user_model XR * result unit (solver_error EI EU))) :
  attracting n U (fun _ => A) xs rho beta kappa eta lam ->
  (forall x, near n xs rho x -> U x = f x) -> 0 <= lam ->
  factor beta kappa eta rho <= q -> q < 1 ->
  (exists rf' s' y, um_inputs s' = lift y /\
    near n xs (radius beta kappa eta rho (rf_iter rf')) y /\ near n xs rho y /\
    (rf_iter rf' <= maxit)%nat /\
    (r = Ret (rf', s', Ok tt) /\ amax (U y) <= tol \/
     r = Ret (rf', s', Err NonConvergenceError) /\ amax (U y) > tol /\ rf_iter rf' = maxit) /\
    forall K, (K <= maxit)%nat -> lam * radius beta kappa eta rho K <= tol ->
      r = Ret (rf', s', Ok tt) /\ (rf_iter rf' <= K)%nat) ->
  attracted n f xs rho lam q tol maxit r.
Proof.
  intros AT HU Pl FQ Q1 (rf' & s' & y & G & N1 & N2 & B & OUT & FAST).
  assert (RQ : forall k, radius beta kappa eta rho k <= q ^ k * rho).
  { destruct (at_pos _ _ _ _ _ _ _ _ _ AT) as (? & _).
    intros k; apply (radius_bounds n U _ xs rho beta kappa eta lam AT); lra. }
  assert (Lf : length (f y) = n) by (rewrite <- HU by exact N2; exact (at_fun _ _ _ _ _ _ _ _ _ AT y N2)).
  rewrite HU in OUT by exact N2; exists rf', s', y; split; [exact G|].
  split; [eapply near_le; [apply RQ|exact N1]|]; split; [exact B|]; split.
  - destruct OUT as [[O1 O2]|(O1 & O2 & O3)]; [left|right; auto].
    split; [exact O1|]; intros i Hi; apply amax_le with (t := tol); [|exact O2|rewrite Lf; exact Hi].
    pose proof (amax_nonneg (f y)); lra.
  - intros K HK BK; apply FAST; [exact HK|]; eapply Rle_trans; [|exact BK].
    apply Rmult_le_compat_l; [exact Pl|apply RQ].
Qed.

Theorem C69_stationary_newton : forall n func jac (f : vec R -> vec R) (J : vec R -> mat R)
  xs rho ell b mu x0 tol maxit rf,
  (forall x, near n xs rho x -> func (lift x) = lift (f x)) ->
  (forall x, near n xs rho x -> jac (lift x) = liftm (J x)) ->
  regular_root n f J xs rho ell b mu ->
  spread n b ell rho < 1 / 3 ->
  near n xs rho x0 ->
  rootfinder_new (mkSolverParameters n (Fin tol) maxit (QuasiNewton StationaryNewton) false) (lift x0)
    (jac_iteratives n) (all_abs n) = Ret rf ->
  attracted n f xs rho (INR n * (mu + ell * rho)) (2 * ratio (spread n b ell rho)) tol maxit
    (solve (model_from_function_and_jacobian func jac) rf (user_model_new n)).
Proof.
  intros n func jac f J xs rho ell b mu x0 tol maxit rf Hf HJ RR SP Nx HN; apply new_fields in HN.
  destruct (rr_pos _ _ _ _ _ _ _ _ RR) as (P1 & P2 & P3 & P4).
  assert (Pn : 0 <= INR n) by apply pos_INR.
  assert (P5 : 0 <= ell * rho) by (apply Rmult_le_pos; assumption).
  set (D := near n xs rho).
  assert (Hf' : forall x, D x -> length x = n -> func (lift x) = lift (f x) /\ length (f x) = n)
    by (intros x Dx _; split; [apply Hf, Dx|exact (rr_fun _ _ _ _ _ _ _ _ RR x Dx)]).
  assert (HJ' : forall x, D x -> length x = n -> jac (lift x) = liftm (J x) /\ is_mat n (J x))
    by (intros x Dx _; split; [apply HJ, Dx|exact (rr_mat _ _ _ _ _ _ _ _ RR x Dx)]).
  assert (FP := adapter_problem n D func f Hf' (fun _ => true) (um_get_jacobian jac)).
  assert (WB := abs_well_behaved _ n _ _ _ _ FP).
  assert (HA := adapter_analytic n D func f Hf' jac J HJ').
  set (M := model_from_function_and_jacobian func jac) in *.
  set (U := residuals_of f (fun _ => vzeros n)) in *.
  assert (EU : forall x, near n xs rho x -> U x = f x).
  { intros x N; apply residuals_of_zero; exact (rr_fun _ _ _ _ _ _ _ _ RR x N). }
  assert (Z : rho + 0 = rho) by lra.
  assert (AT : attracting n U (fun _ => J x0) xs rho (b / (1 - spread n b ell (rho + 0))) (INR n * ell)
    (INR n * (ell * (rho + 0))) (INR n * (mu + ell * (rho + 0)))).
  { apply (kept_attracting n f J xs rho 0 ell b mu x0); rewrite ?Z; auto; try lra.
    - exact (rr_mat _ _ _ _ _ _ _ _ RR x0 Nx).
    - intros i j Hi Hj; exists x0; split; [exact Nx|]; split; [|reflexivity].
      apply near_refl; exact (proj1 Nx). }
  destruct (kept_factor n b ell rho 0 P3 P2 P1 ltac:(lra) ltac:(rewrite Z; exact SP)) as [K1 K2].
  rewrite Z in *.
  assert (MI : sp_max_iter (rf_parameters rf) = maxit) by (subst rf; reflexivity).
  apply (pack_attracted n f U xs rho (b / (1 - spread n b ell rho)) (INR n * ell)
    (INR n * (ell * rho)) _ _ tol maxit (J x0)); auto.
  { apply Rmult_le_pos; lra. }
  rewrite <- MI.
  apply (stationary_attracted M n (all_abs n) (adapter_good n) D f (fun _ => vzeros n) U WB (J x0) xs rho
    _ _ _ _ AT ltac:(intros x N; exact N) rf (user_model_new n) x0 x0 tol); auto;
    try (subst rf; reflexivity); try lra.
  - subst rf; repeat split; [apply default_jac_unlimited|].
    cbn [rf_iters_params]; unfold jac_iteratives, default_vec_iteratives.
    rewrite map_length, repeat_length; reflexivity.
  - apply fresh_good.
  - intros s1 _; left; exists J; auto.
Qed.
Print Assumptions C69_stationary_newton.

Theorem C69_stationary_newton_fd : forall n func (f : vec R -> vec R) (J : vec R -> mat R)
  xs rho delta ell b mu x0 tol maxit its step rf,
  (forall x, near n xs (rho + delta) x -> func (lift x) = lift (f x)) ->
  regular_root n f J xs (rho + delta) ell b mu -> 0 <= rho -> 0 <= delta ->
  Forall unlimited its -> length its = n -> small_steps n its (near n xs rho) step delta ->
  spread n b ell (rho + delta) < 1 / 3 ->
  near n xs rho x0 ->
  rootfinder_new (mkSolverParameters n (Fin tol) maxit (QuasiNewton StationaryNewton) false) (lift x0)
    its (all_abs n) = Ret rf ->
  attracted n f xs rho (INR n * (mu + ell * (rho + delta))) (2 * ratio (spread n b ell (rho + delta)))
    tol maxit (solve (model_from_function func) rf (user_model_new n)).
Proof.
  intros n func f J xs rho delta ell b mu x0 tol maxit its step rf Hf RR P0 Pd UL LI ST SP Nx HN.
  apply new_fields in HN.
  destruct (rr_pos _ _ _ _ _ _ _ _ RR) as (P1 & P2 & P3 & P4).
  assert (Pn : 0 <= INR n) by apply pos_INR.
  assert (P5 : 0 <= ell * (rho + delta)) by (apply Rmult_le_pos; assumption).
  set (D := near n xs (rho + delta)).
  assert (Hf' : forall x, D x -> length x = n -> func (lift x) = lift (f x) /\ length (f x) = n)
    by (intros x Dx _; split; [apply Hf, Dx|exact (rr_fun _ _ _ _ _ _ _ _ RR x Dx)]).
  assert (FP := adapter_problem n D func f Hf' default_jacobian_provided (default_get_jacobian um_inputs)).
  assert (WB := abs_well_behaved _ n _ _ _ _ FP).
  change (mkModel um_problem_size um_set_iteratives um_inputs (um_evaluate func) um_get_residuals
    default_jacobian_provided (default_get_jacobian um_inputs) default_get_memory default_set_memory
    show_infallible show_infallible) with (model_from_function func) in WB.
  set (M := model_from_function func) in *.
  set (U := residuals_of f (fun _ => vzeros n)) in *.
  assert (EU : forall x, length x = n -> near n xs (rho + delta) x -> U x = f x).
  { intros x _ N; apply residuals_of_zero; exact (rr_fun _ _ _ _ _ _ _ _ RR x N). }
  assert (NB : forall x, near n xs rho x -> D x)
    by (intros x N; apply near_le with rho; [lra|exact N]).
  assert (FPT : forall x, near n xs rho x -> fd_points n D x (step x)).
  { intros x N j Hj; apply (fd_near n xs rho delta its step ST); auto using within_self. }
  assert (FDE : forall x i j, near n xs rho x -> (i < n)%nat -> (j < n)%nat ->
    ment (fd_matrix n U x (step x)) i j
    = (vent (U (shift x j (vent (step x) j))) i - vent (U x) i) / vent (step x) j).
  { intros x i j N Hi Hj; apply (fd_matrix_entry M n _ _ D _ _ U _ WB); auto; exact (proj1 N). }
  assert (AT := kept_attracting n f J xs rho delta ell b mu x0 (fd_matrix n U x0 (step x0)) U RR P0 Pd EU Nx
    (fd_matrix_is_mat n U x0 (step x0))
    (fun i j => fd_entry_is_partial n f J xs rho delta ell b mu its step RR Pd ST U EU FDE x0 i j Nx)
    ltac:(lra)).
  destruct (kept_factor n b ell rho delta P3 P2 P0 Pd SP) as [K1 K2].
  assert (MI : sp_max_iter (rf_parameters rf) = maxit) by (subst rf; reflexivity).
  apply (pack_attracted n f U xs rho (b / (1 - spread n b ell (rho + delta))) (INR n * ell)
    (INR n * (ell * (rho + delta))) _ _ tol maxit (fd_matrix n U x0 (step x0))); auto.
  { intros x N; apply EU; [exact (proj1 N)|apply NB, N]. }
  { apply Rmult_le_pos; lra. }
  rewrite <- MI.
  apply (stationary_attracted M n (all_abs n) (adapter_good n) D f (fun _ => vzeros n) U WB
    (fd_matrix n U x0 (step x0)) xs rho _ _ _ _ AT NB rf (user_model_new n) x0 (fd_last n x0 (step x0)) tol);
    auto; try (subst rf; reflexivity); try lra.
  - subst rf; repeat split; assumption.
  - apply fresh_good.
  - intros s1 _; right; exists (step x0).
    destruct (ST x0 Nx) as (T1 & T2 & T3).
    split; [reflexivity|]; split; [|split; reflexivity].
    replace (rf_iters_params rf) with its by (subst rf; reflexivity).
    split; [exact T1|]; split; [exact T2|]; split; [intros; apply T3; assumption|apply FPT; exact Nx].
Qed.
Print Assumptions C69_stationary_newton_fd.

(** Broyden's problem 9: from within 1/400 of the solution (1, 1), at most 43
    iterations for residuals of at most 10^-6. *)
Example C69_case : forall x0 maxit rf, near 2 [1; 1] (1 / 400) x0 -> (43 <= maxit)%nat ->
  rootfinder_new (mkSolverParameters 2 (Fin (1 / 1000000)) maxit (QuasiNewton StationaryNewton) false)
    (lift x0) (jac_iteratives 2) (all_abs 2) = Ret rf ->
  exists rf' s' y,
    solve (model_from_function_and_jacobian case9 case9_jac) rf (user_model_new 2)
    = Ret (rf', s', Ok tt) /\ (rf_iter rf' <= 43)%nat /\ um_inputs s' = lift y /\
    near 2 [1; 1] ((3 / 4) ^ rf_iter rf' * (1 / 400)) y.
Proof.
  intros x0 maxit rf Nx LM HN.
  assert (SP : spread 2 (21 / 10) 20 (1 / 400) = 21 / 100) by (unfold spread; cbn [INR]; lra).
  destruct (C69_stationary_newton 2 case9 case9_jac case9 case9_jac [1; 1] (1 / 400) 20 (21 / 10) 20
    x0 (1 / 1000000) maxit rf) as (rf' & s' & y & G & N & B & OUT & FAST).
  - intros x [Lx _]; destruct (len2 x Lx) as (a & c & ->); reflexivity.
  - intros x [Lx _]; destruct (len2 x Lx) as (a & c & ->); reflexivity.
  - apply case9_regular; lra.
  - rewrite SP; lra.
  - exact Nx.
  - exact HN.
  - rewrite SP in *.
    assert (Q : 0 <= 2 * ratio (21 / 100) <= 3 / 4) by (unfold ratio; lra).
    destruct (FAST 43%nat LM) as [F1 F2].
    { apply Rle_trans with (INR 2 * (20 + 20 * (1 / 400)) * ((3 / 4) ^ 43 * (1 / 400))).
      - apply Rmult_le_compat_l; [cbn [INR]; lra|]; apply Rmult_le_compat_r; [lra|].
        apply pow_incr; exact Q.
      - cbn [INR pow]; lra. }
    exists rf', s', y; split; [exact F1|]; split; [exact F2|]; split; [exact G|].
    eapply near_le; [|exact N]; apply Rmult_le_compat_r; [lra|]; apply pow_incr; exact Q.
Qed.

Example C69_case_exists : exists rf, near 2 [1; 1] (1 / 400) [401 / 400; 399 / 400] /\
  rootfinder_new (mkSolverParameters 2 (Fin (1 / 1000000)) 43 (QuasiNewton StationaryNewton) false)
    (lift [401 / 400; 399 / 400]) (jac_iteratives 2) (all_abs 2) = Ret rf.
Proof.
  eexists; split; [|reflexivity].
  split; [reflexivity|]; intros [|[|i]] Hi; [| |lia]; unfold vent; cbn [nth];
    unfold Rabs; destruct Rcase_abs; lra.
Qed.
