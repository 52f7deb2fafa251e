(** Convergence near a root, in exact arithmetic and in every dimension: C67
    (Newton-Raphson with the jacobian of the user: quadratic), C68 (the same with
    finite differences: linear, with a ratio that vanishes with the perturbation). *)
From Coq Require Import Reals Lra.
From Verif Require Import Base Num Linalg Residuals Iteratives UserModel Jacobian Solver
  RNum LuFacts XR PropsQuasi PropsFD ExactFacts ExactRun PropsExact Props1d LocalFacts
  TestCases PropsCases.
Open Scope R_scope.

(** ** The solver on an attracting root *)

Section Attracted.
Context {St EI EU : Type} (M : Model XR St EI EU) (n : nat) (conf : residuals_config)
  (Good : St -> Prop) (D : vec R -> Prop) (L Rg U : vec R -> vec R)
  (WB : well_behaved M n conf Good D L Rg U (fun x => vabs (U x)))
  (its : list (iterative XR)) (J : vec R -> mat R) (z : vec R -> vec R)
  (xs : vec R) (rho beta kappa eta lam : R)
  (HA : attracting n U J xs rho beta kappa eta lam)
  (HD : forall x, near n xs rho x -> D x)
  (HJ : forall rf x s, rf_iters_params rf = its -> near n xs rho x -> at_point M n Good D L Rg x s ->
     jacobian_source M n conf Good D L Rg U rf x s (J x) (z x)).

Lemma attracted_solve rf s x0 tol r :
  newton_config n conf rf -> rf_iters_params rf = its ->
  sp_tolerance (rf_parameters rf) = Fin tol ->
  (sp_damping (rf_parameters rf) = true -> forall x H, near n xs r x -> lu_inverse (J x) = Some H ->
     amax (U (newton_point U H x)) <= amax (U (z x))) ->
  rf_iter rf = O -> rf_valid_last rf = true -> rf_initial_guess rf = lift x0 -> Good s ->
  0 <= r <= rho -> factor beta kappa eta r <= 1 -> near n xs r x0 ->
  exists rf' s' y, get_iteratives M s' = lift y /\
    near n xs (radius beta kappa eta r (rf_iter rf')) y /\ near n xs rho y /\
    (rf_iter rf' <= sp_max_iter (rf_parameters rf))%nat /\
    (solve M rf s = Ret (rf', s', Ok tt) /\ amax (U y) <= tol \/
     solve M rf s = Ret (rf', s', Err NonConvergenceError) /\ amax (U y) > tol /\
     rf_iter rf' = sp_max_iter (rf_parameters rf)) /\
    forall K, (K <= sp_max_iter (rf_parameters rf))%nat ->
      lam * radius beta kappa eta r K <= tol ->
      solve M rf s = Ret (rf', s', Ok tt) /\ (rf_iter rf' <= K)%nat.
Proof.
  intros NC EI1 HT HM H0 HV HG Gs Pr Fr Nx.
  assert (Nr : near n xs rho x0) by (apply near_le with r; [lra|exact Nx]).
  (* the domain is the ball of the start *)
  set (P := fun x => near n xs r x).
  assert (SOL := newton_solve M n conf Good D L Rg U (fun x => vabs (U x)) WB its J z (Fin tol)
    (sp_damping (rf_parameters rf)) P).
  specialize (SOL ltac:(intros rf1 x s1 Q1 Q2 Q3; apply HJ; [exact Q1|apply near_le with r; [lra|exact Q2]|exact Q3])).
  assert (HP : forall x H, P x -> length x = n -> xltb (Fin tol) (Fin (amax (vabs (U x)))) = true ->
    lu_inverse (J x) = Some H -> P (newton_point U H x) /\ D (newton_point U H x) /\
    (sp_damping (rf_parameters rf) = true ->
     amax (vabs (U (newton_point U H x))) <= amax (vabs (U (z x))))).
  { intros x H Px _ _ EH.
    destruct (contract_step n U J xs rho beta kappa eta lam HA x r Pr Fr Px) as (H' & EH' & Nw).
    rewrite EH in EH'; injection EH' as <-.
    assert (P (newton_point U H x)).
    { apply near_le with (factor beta kappa eta r * r); [|exact Nw].
      apply Rle_trans with (1 * r); [apply Rmult_le_compat_r; lra|lra]. }
    split; [assumption|]; split; [|intros Q; rewrite !amax_vabs; apply HM; assumption].
    apply HD; apply near_le with r; [lra|assumption]. }
  specialize (SOL HP rf s x0 NC EI1 HT eq_refl H0 HV HG (proj1 Nx) Nx (HD _ Nr) Gs).
  destruct (contract_run n U J xs rho beta kappa eta lam HA (fun x => amax (vabs (U x))) tol
    ltac:(intros; apply amax_vabs) (sp_max_iter (rf_parameters rf)) x0 r Pr Fr Nx)
    as (k & y & ER & N1 & N2 & B1 & B2 & B3).
  cbv beta in SOL; rewrite ER in SOL; destruct SOL as (rf' & s' & _ & SOL & SA & SI).
  exists rf', s', y; rewrite SI; cbv beta in SOL; rewrite amax_vabs in SOL; cbn [xltb] in SOL.
  split; [apply SA|]; split; [exact N1|]; split; [exact N2|]; split; [exact B1|].
  destruct (Rltb tol (amax (U y))) eqn:T.
  - apply Rltb_true in T; split.
    + right; split; [exact SOL|]; split; [lra|].
      destruct (Nat.eq_dec k (sp_max_iter (rf_parameters rf))) as [Q|Q]; [exact Q|].
      specialize (B2 ltac:(lia)); lra.
    + intros K HK BK; destruct (B3 K HK BK); lra.
  - apply Rltb_false in T; split; [left; split; [exact SOL|exact T]|].
    intros K HK BK; destruct (B3 K HK BK); split; [exact SOL|assumption].
Qed.
End Attracted.

(** ** C67 *)

(** [xs] is a regular root of [f]: a root where the derivatives [J] of [f] form
    an invertible matrix, whose inverse has norm at most [b]; the derivatives
    have Lipschitz constant [ell] up to a distance [rho], and are at most [mu] at
    the root. *)
Record regular_root (n : nat) (f : vec R -> vec R) (J : vec R -> mat R) (xs : vec R)
  (rho ell b mu : R) : Prop := {
  rr_len : length xs = n;
  rr_pos : 0 <= rho /\ 0 <= ell /\ 0 <= b /\ 0 <= mu;
  rr_root : forall i, (i < n)%nat -> vent (f xs) i = 0;
  rr_fun : forall x, near n xs rho x -> length (f x) = n;
  rr_mat : forall x, near n xs rho x -> square n (J x);
  rr_partials : partials n (near n xs rho) f J;
  rr_lipschitz : lipschitz n (near n xs rho) J ell;
  rr_regular : bounded_below n (J xs) b;
  rr_bound : forall i j, (i < n)%nat -> (j < n)%nat -> Rabs (ment (J xs) i j) <= mu
}.

Section Regular.
Context (n : nat) (f : vec R -> vec R) (J : vec R -> mat R) (xs : vec R) (rho ell b mu : R)
  (RR : regular_root n f J xs rho ell b mu).

Lemma rr_self : near n xs rho xs.
Proof.
  destruct (rr_pos _ _ _ _ _ _ _ _ RR) as (? & ? & ? & ?).
  apply near_le with 0; [lra|]; apply near_refl, (rr_len _ _ _ _ _ _ _ _ RR).
Qed.

Lemma rr_close x r i j : near n xs rho x -> near n xs r x -> (i < n)%nat -> (j < n)%nat ->
  Rabs (ment (J x) i j - ment (J xs) i j) <= ell * r.
Proof.
  intros N1 N2 Hi Hj; apply (rr_lipschitz _ _ _ _ _ _ _ _ RR); auto.
  - apply rr_self.
  - apply (rr_len _ _ _ _ _ _ _ _ RR).
Qed.

(** The residuals near the root. *)
Lemma rr_small x r : near n xs rho x -> 0 <= r -> near n xs r x ->
  forall i, (i < n)%nat -> Rabs (vent (f x) i) <= INR n * (mu + ell * rho) * r.
Proof.
  intros N1 Pr N2 i Hi.
  assert (Lxs := rr_len _ _ _ _ _ _ _ _ RR).
  destruct (rr_pos _ _ _ _ _ _ _ _ RR) as (P1 & P2 & P3 & P4).
  set (r' := Rmin r rho).
  assert (N3 : near n xs r' x).
  { split; [apply N1|]; intros k Hk; unfold r'; apply Rmin_glb; [apply N2|apply N1]; exact Hk. }
  assert (R1 : r' <= rho) by apply Rmin_r.
  assert (R2 : r' <= r) by apply Rmin_l.
  assert (K := linear_from_partials n (near n xs rho) f J (mzeros n) xs x r' (mu + ell * rho)
    (rr_partials _ _ _ _ _ _ _ _ RR) Lxs N3
    ltac:(intros y Ny; apply near_le with r'; [exact R1|exact Ny])
    (rr_root _ _ _ _ _ _ _ _ RR)).
  assert (Z : forall k l, (k < n)%nat -> (l < n)%nat -> ment (mzeros n) k l = 0).
  { intros k l Hk Hl; unfold ment, mzeros.
    rewrite (nth_indep _ [] (vzeros n)) by (rewrite repeat_length; exact Hk).
    rewrite nth_repeat; exact (nth_repeat 0 n l). }
  assert (E : app n (mzeros n) (vsub_raw x xs) i = 0).
  { unfold app; apply rsum_zero; intros k Hk; rewrite Z by assumption; lra. }
  specialize (K ltac:(intros y k l Ny _ Hk Hl; rewrite (Z k l) by assumption;
    rewrite Rminus_0_l, Rabs_Ropp;
    assert (Nr : near n xs rho y) by (apply near_le with r'; [exact R1|exact Ny]);
    pose proof (rr_close y rho k l Nr Nr Hk Hl) as C1;
    pose proof (rr_bound _ _ _ _ _ _ _ _ RR k l Hk Hl) as C2;
    replace (ment (J y) k l) with (ment (J y) k l - ment (J xs) k l + ment (J xs) k l) by lra;
    eapply Rle_trans; [apply Rabs_triang|]; lra) i Hi).
  rewrite E, Rminus_0_l, Rabs_Ropp in K; eapply Rle_trans; [exact K|].
  apply Rmult_le_compat_l; [|exact R2].
  apply Rmult_le_pos; [apply pos_INR|].
  assert (0 <= ell * rho) by (apply Rmult_le_pos; assumption); lra.
Qed.
End Regular.

(** How far the derivatives may move, relative to how regular the root is; and
    the ratio that follows. *)
Definition spread (n : nat) (b ell r : R) : R := b * (INR n * (ell * r)).
Definition ratio (c : R) : R := c / (1 - c).

Lemma ratio_bounds c : 0 <= c < 1 / 2 -> 0 <= ratio c < 1.
Proof.
  intros Q; unfold ratio; split.
  - unfold Rdiv; apply Rmult_le_pos; [lra|]; apply Rlt_le, Rinv_0_lt_compat; lra.
  - apply Rmult_lt_reg_r with (1 - c); [lra|].
    replace (c / (1 - c) * (1 - c)) with c by (field; lra); lra.
Qed.

Lemma spread_pos n b ell r : 0 <= b -> 0 <= ell -> 0 <= r -> 0 <= spread n b ell r.
Proof.
  intros; unfold spread; apply Rmult_le_pos; [assumption|].
  apply Rmult_le_pos; [apply pos_INR|apply Rmult_le_pos; assumption].
Qed.

Lemma div_pos a c : 0 <= a -> 0 < c -> 0 <= a / c.
Proof. intros; unfold Rdiv; apply Rmult_le_pos; [assumption|]; apply Rlt_le, Rinv_0_lt_compat; assumption. Qed.

Lemma regular_attracting n f J xs rho ell b mu U : regular_root n f J xs rho ell b mu ->
  (forall x, length x = n -> near n xs rho x -> U x = f x) -> spread n b ell rho < 1 ->
  attracting n U J xs rho (b / (1 - spread n b ell rho)) (INR n * ell) 0 (INR n * (mu + ell * rho)).
Proof.
  intros RR EU SP.
  destruct (rr_pos _ _ _ _ _ _ _ _ RR) as (P1 & P2 & P3 & P4).
  assert (Pn : 0 <= INR n) by apply pos_INR.
  assert (P5 : 0 <= ell * rho) by (apply Rmult_le_pos; assumption).
  constructor.
  - exact (rr_len _ _ _ _ _ _ _ _ RR).
  - split; [exact P1|]; split; [apply div_pos; lra|].
    split; [apply Rmult_le_pos; assumption|]; split; [lra|].
    apply Rmult_le_pos; lra.
  - intros x N; rewrite EU by (try exact N; exact (proj1 N)); exact (rr_fun _ _ _ _ _ _ _ _ RR x N).
  - intros x N; split; [exact (rr_mat _ _ _ _ _ _ _ _ RR x N)|].
    apply (bounded_below_perturbed n (J xs)); auto.
    + exact (rr_regular _ _ _ _ _ _ _ _ RR).
    + intros i j Hi Hj; apply (rr_close n f J xs rho ell b mu RR); assumption.
  - intros x r N Pr Nr i Hi; rewrite EU by (try exact N; exact (proj1 N)).
    replace ((INR n * ell * r + 0) * r) with (INR n * (ell * r) * r) by lra.
    apply (linear_from_partials n (near n xs rho) f J (J x) xs x r (ell * r)); auto.
    + exact (rr_partials _ _ _ _ _ _ _ _ RR).
    + exact (rr_len _ _ _ _ _ _ _ _ RR).
    + intros y Ny; apply near_le with r; [lra|exact Ny].
    + exact (rr_root _ _ _ _ _ _ _ _ RR).
    + intros y k l Ny Nx Hk Hl; apply (rr_lipschitz _ _ _ _ _ _ _ _ RR); auto.
      * apply near_le with r; [lra|exact Ny].
      * exact (proj1 Ny).
      * apply near_sym; [exact (proj1 N)|exact Nx].
  - intros x r N Pr Nr i Hi; rewrite EU by (try exact N; exact (proj1 N)).
    apply (rr_small n f J xs rho ell b mu RR); assumption.
Qed.

Lemma residuals_of_zero n (f : vec R -> vec R) x : length (f x) = n ->
  residuals_of f (fun _ => vzeros n) x = f x.
Proof.
  intros Lf; unfold residuals_of; apply (vec_ext _ _ n).
  - apply (len_sub n); [exact Lf|apply repeat_length].
  - exact Lf.
  - intros i Hi; rewrite (ent_sub n); [|exact Lf|apply repeat_length|exact Hi].
    replace (vent (vzeros n) i) with 0 by (symmetry; exact (nth_repeat 0 n i)); lra.
Qed.

(** Newton-Raphson with the jacobian of the user, started within [rho] of a
    regular root: the distance to the root after [k] iterations is at most
    [q^(2^k-1) rho]; the solver never reports a jacobian problem, and returns
    [Ok] as soon as the residuals must be within the tolerance. *)
(** The same with damping, when the residuals cannot grow. *)
Lemma quadratic_run : forall n func jac (f : vec R -> vec R) (J : vec R -> mat R)
  xs rho ell b mu x0 tol maxit damping rf,
  (forall x, near n xs rho x -> func (lift x) = lift (f x)) ->
  (forall x, near n xs rho x -> jac (lift x) = liftm (J x)) ->
  regular_root n f J xs rho ell b mu ->
  spread n b ell rho < 1 / 2 ->
  (damping = true -> INR n * (mu + ell * rho) * b * spread n b ell rho
     <= (1 - 2 * spread n b ell rho) * (1 - spread n b ell rho)) ->
  near n xs rho x0 ->
  rootfinder_new (mkSolverParameters n (Fin tol) maxit NewtonRaphson damping) (lift x0)
    (jac_iteratives n) (all_abs n) = Ret rf ->
  let q := ratio (spread n b ell rho) in
  exists rf' s' y,
    um_inputs s' = lift y /\ near n xs (q ^ (2 ^ rf_iter rf' - 1) * rho) y /\
    (rf_iter rf' <= maxit)%nat /\
    (solve (model_from_function_and_jacobian func jac) rf (user_model_new n)
     = Ret (rf', s', Ok tt) /\ (forall i, (i < n)%nat -> Rabs (vent (f y) i) <= tol) \/
     solve (model_from_function_and_jacobian func jac) rf (user_model_new n)
     = Ret (rf', s', Err NonConvergenceError) /\ rf_iter rf' = maxit /\
     amax (f y) > tol) /\
    forall K, (K <= maxit)%nat ->
      INR n * (mu + ell * rho) * (q ^ (2 ^ K - 1) * rho) <= tol ->
      solve (model_from_function_and_jacobian func jac) rf (user_model_new n)
      = Ret (rf', s', Ok tt) /\ (rf_iter rf' <= K)%nat.
Proof.
  intros n func jac f J xs rho ell b mu x0 tol maxit damping rf Hf HJ RR SP DP Nx HN q; apply new_fields in HN.
  destruct (rr_pos _ _ _ _ _ _ _ _ RR) as (P1 & P2 & P3 & P4).
  assert (Pn : 0 <= INR n) by apply pos_INR.
  assert (P5 : 0 <= ell * rho) by (apply Rmult_le_pos; assumption).
  assert (S0 : 0 <= spread n b ell rho) by (apply spread_pos; assumption).
  set (D := near n xs rho).
  assert (Hf' : forall x, D x -> length x = n -> func (lift x) = lift (f x) /\ length (f x) = n)
    by (intros x Dx _; split; [apply Hf, Dx|exact (rr_fun _ _ _ _ _ _ _ _ RR x Dx)]).
  assert (HJ' : forall x, D x -> length x = n -> jac (lift x) = liftm (J x) /\ is_mat n (J x))
    by (intros x Dx _; split; [apply HJ, Dx|exact (rr_mat _ _ _ _ _ _ _ _ RR x Dx)]).
  assert (FP := adapter_problem n D func f Hf' (fun _ => true) (um_get_jacobian jac)).
  assert (WB := abs_well_behaved _ n _ _ _ _ FP).
  assert (HA := adapter_analytic n D func f Hf' jac J HJ').
  set (M := model_from_function_and_jacobian func jac) in *.
  set (U := residuals_of f (fun _ => vzeros n)) in *.
  assert (EU : forall x, length x = n -> near n xs rho x -> U x = f x).
  { intros x _ N; apply residuals_of_zero; exact (rr_fun _ _ _ _ _ _ _ _ RR x N). }
  assert (AT := regular_attracting n f J xs rho ell b mu U RR EU ltac:(lra)).
  set (beta := b / (1 - spread n b ell rho)) in *.
  assert (FQ : factor beta (INR n * ell) 0 rho = q).
  { unfold factor, q, ratio, beta, spread; field; fold (spread n b ell rho); unfold spread in *; lra. }
  assert (QB : 0 <= q < 1) by (apply ratio_bounds; lra).
  assert (NC : newton_config n (all_abs n) rf).
  { subst rf; repeat split; [apply default_jac_unlimited|].
    cbn [rf_iters_params]; unfold jac_iteratives, default_vec_iteratives.
    rewrite map_length, repeat_length; reflexivity. }
  assert (MI : sp_max_iter (rf_parameters rf) = maxit) by (subst rf; reflexivity).
  assert (DR : sp_damping (rf_parameters rf) = true -> forall x H, near n xs rho x ->
    lu_inverse (J x) = Some H -> amax (U (newton_point U H x)) <= amax (U x)).
  { intros SD x H N EH; replace (sp_damping (rf_parameters rf)) with damping in SD by (subst rf; reflexivity).
    specialize (DP SD).
    apply (residual_drops n U J xs rho beta (INR n * ell) 0 (INR n * (mu + ell * rho)) AT q);
      auto; try lra.
    unfold q, ratio, beta; set (c := spread n b ell rho) in *.
    apply Rmult_le_reg_r with ((1 - c) * (1 - c)); [apply Rmult_lt_0_compat; lra|].
    replace (INR n * (mu + ell * rho) * (c / (1 - c)) * (b / (1 - c)) * ((1 - c) * (1 - c)))
      with (INR n * (mu + ell * rho) * b * c) by (field; lra).
    replace ((1 - c / (1 - c)) * ((1 - c) * (1 - c))) with ((1 - 2 * c) * (1 - c)) by (field; lra).
    exact DP. }
  destruct (attracted_solve M n (all_abs n) (adapter_good n) D f (fun _ => vzeros n) U WB
    (jac_iteratives n) J (fun x => x) xs rho beta (INR n * ell) 0 (INR n * (mu + ell * rho))
    AT ltac:(intros x N; exact N) ltac:(intros rf1 x s _ _ _; left; exists J; auto)
    rf (user_model_new n) x0 tol rho NC ltac:(subst rf; reflexivity) ltac:(subst rf; reflexivity)
    DR ltac:(subst rf; reflexivity) ltac:(subst rf; reflexivity)
    ltac:(subst rf; reflexivity) (fresh_good n) ltac:(lra) ltac:(lra) Nx)
    as (rf' & s' & y & G & N1 & N2 & B & OUT & FAST).
  rewrite MI in *; rewrite EU in OUT by (try exact N2; exact (proj1 N2)).
  exists rf', s', y; split; [exact G|].
  assert (RQ : forall k, radius beta (INR n * ell) 0 rho k <= q ^ (2 ^ k - 1) * rho).
  { intros k; apply (radius_quadratic n U J xs rho beta (INR n * ell) 0 (INR n * (mu + ell * rho)) AT);
      auto; try lra; fold (factor beta (INR n * ell) 0 rho); lra. }
  split; [apply near_le with (radius beta (INR n * ell) 0 rho (rf_iter rf')); [apply RQ|exact N1]|].
  split; [exact B|]; split.
  - destruct OUT as [[O1 O2]|(O1 & O2 & O3)]; [left|right; auto].
    split; [exact O1|]; intros i Hi; apply amax_le with (t := tol); [|exact O2|].
    + pose proof (amax_nonneg (f y)); lra.
    + rewrite (rr_fun _ _ _ _ _ _ _ _ RR y N2); exact Hi.
  - intros K HK BK; apply FAST; [exact HK|]; eapply Rle_trans; [|exact BK].
    apply Rmult_le_compat_l; [apply Rmult_le_pos; lra|apply RQ].
Qed.

Theorem C67_quadratic_convergence : forall n func jac (f : vec R -> vec R) (J : vec R -> mat R)
  xs rho ell b mu x0 tol maxit rf,
  (forall x, near n xs rho x -> func (lift x) = lift (f x)) ->
  (forall x, near n xs rho x -> jac (lift x) = liftm (J x)) ->
  regular_root n f J xs rho ell b mu ->
  spread n b ell rho < 1 / 2 ->
  near n xs rho x0 ->
  rootfinder_new (mkSolverParameters n (Fin tol) maxit NewtonRaphson false) (lift x0)
    (jac_iteratives n) (all_abs n) = Ret rf ->
  let q := ratio (spread n b ell rho) in
  exists rf' s' y,
    um_inputs s' = lift y /\ near n xs (q ^ (2 ^ rf_iter rf' - 1) * rho) y /\
    (rf_iter rf' <= maxit)%nat /\
    (solve (model_from_function_and_jacobian func jac) rf (user_model_new n)
     = Ret (rf', s', Ok tt) /\ (forall i, (i < n)%nat -> Rabs (vent (f y) i) <= tol) \/
     solve (model_from_function_and_jacobian func jac) rf (user_model_new n)
     = Ret (rf', s', Err NonConvergenceError) /\ rf_iter rf' = maxit /\
     amax (f y) > tol) /\
    forall K, (K <= maxit)%nat ->
      INR n * (mu + ell * rho) * (q ^ (2 ^ K - 1) * rho) <= tol ->
      solve (model_from_function_and_jacobian func jac) rf (user_model_new n)
      = Ret (rf', s', Ok tt) /\ (rf_iter rf' <= K)%nat.
Proof.
  intros n func jac f J xs rho ell b mu x0 tol maxit rf Hf HJ RR SP Nx HN.
  apply (quadratic_run n func jac f J xs rho ell b mu x0 tol maxit false rf); auto; discriminate.
Qed.
Print Assumptions C67_quadratic_convergence.

(** Every tolerance is reached: there is a number of iterations that suffices
    from every starting point of the ball. *)
Lemma pow_reaches q a tol : 0 <= q < 1 -> 0 <= a -> 0 < tol -> exists K, forall k, (K <= k)%nat -> a * q ^ k <= tol.
Proof.
  intros Q Pa Pt.
  destruct (pow_lt_1_zero q ltac:(rewrite Rabs_right; lra) (tol / (a + 1))) as [K HK].
  { apply Rdiv_lt_0_compat; lra. }
  exists K; intros k Lk; specialize (HK k ltac:(lia)).
  rewrite Rabs_right in HK by (apply Rle_ge, pow_le; lra).
  apply Rle_trans with (a * (tol / (a + 1))).
  - apply Rmult_le_compat_l; lra.
  - apply Rmult_le_reg_r with (a + 1); [lra|].
    replace (a * (tol / (a + 1)) * (a + 1)) with (a * tol) by (field; lra); lra.
Qed.

Lemma pow2_ge k : (k <= 2 ^ k - 1)%nat.
Proof. induction k as [|k IH]; [cbn; lia|]; cbn [Nat.pow]; pose proof (Nat.pow_nonzero 2 k); lia. Qed.

Theorem C67_converges : forall n func jac (f : vec R -> vec R) (J : vec R -> mat R) xs rho ell b mu tol,
  (forall x, near n xs rho x -> func (lift x) = lift (f x)) ->
  (forall x, near n xs rho x -> jac (lift x) = liftm (J x)) ->
  regular_root n f J xs rho ell b mu ->
  spread n b ell rho < 1 / 2 -> 0 < tol ->
  exists K, forall x0 maxit rf, near n xs rho x0 -> (K <= maxit)%nat ->
  rootfinder_new (mkSolverParameters n (Fin tol) maxit NewtonRaphson false) (lift x0)
    (jac_iteratives n) (all_abs n) = Ret rf ->
  exists rf' s' y,
    solve (model_from_function_and_jacobian func jac) rf (user_model_new n)
    = Ret (rf', s', Ok tt) /\ (rf_iter rf' <= K)%nat /\ um_inputs s' = lift y /\
    forall i, (i < n)%nat -> Rabs (vent (f y) i) <= tol.
Proof.
  intros n func jac f J xs rho ell b mu tol Hf HJ RR SP Pt.
  destruct (rr_pos _ _ _ _ _ _ _ _ RR) as (P1 & P2 & P3 & P4).
  assert (P5 : 0 <= ell * rho) by (apply Rmult_le_pos; assumption).
  assert (S0 : 0 <= spread n b ell rho) by (apply spread_pos; assumption).
  assert (Pn : 0 <= INR n) by apply pos_INR.
  destruct (pow_reaches (ratio (spread n b ell rho)) (INR n * (mu + ell * rho) * rho) tol)
    as [K HK]; [apply ratio_bounds; lra| |exact Pt|].
  { apply Rmult_le_pos; [apply Rmult_le_pos; lra|exact P1]. }
  exists K; intros x0 maxit rf Nx LM HN.
  destruct (C67_quadratic_convergence n func jac f J xs rho ell b mu x0 tol maxit rf Hf HJ RR SP Nx HN)
    as (rf' & s' & y & G & N & B & OUT & FAST).
  specialize (FAST K LM).
  destruct FAST as [F1 F2].
  { specialize (HK (2 ^ K - 1)%nat (pow2_ge K)); lra. }
  exists rf', s', y; split; [exact F1|]; split; [exact F2|]; split; [exact G|].
  destruct OUT as [[_ O]|(O & _)]; [exact O|].
  rewrite F1 in O; discriminate.
Qed.
Print Assumptions C67_converges.

(** ** C67, a case: Broyden's problem 9 (shipped with the repository) *)
Definition value_of {A} (d : A) (o : outcome A) : A := match o with Ret a => a | Panic _ => d end.
Definition case9 {F} `{Num F} (x : vec F) : vec F := value_of [] (broyden1965_case9 x).
Definition case9_jac {F} `{Num F} (x : vec F) : mat F := value_of [] (broyden1965_case9_jac x).

Lemma len2 (x : vec R) : length x = 2%nat -> exists a c, x = [a; c].
Proof. destruct x as [|a [|c [|]]]; try discriminate; eauto. Qed.

Lemma case9_partials D : partials 2 D case9 case9_jac.
Proof.
  intros x i j _ Lx Hi Hj; destruct (len2 x Lx) as (a & c & ->); clear Lx.
  destruct i as [|[|i]]; [| |lia]; (destruct j as [|[|j]]; [| |lia]); cbv [PropsFD.shift firstn skipn List.app].
  - apply (cubic _ _ _ (10 * (c - a * a)) (-20 * a) (-10) 0); [intros u|]; unfold ment, vent, nsq; cbn; lra.
  - apply (cubic _ _ _ (10 * (c - a * a)) 10 0 0); [intros u|]; unfold ment, vent, nsq; cbn; lra.
  - apply (cubic _ _ _ (1 - a) (-1) 0 0); [intros u|]; unfold ment, vent, nsq; cbn; lra.
  - apply (cubic _ _ _ (1 - a) 0 0 0); [intros u|]; unfold ment, vent, nsq; cbn; lra.
Qed.

Lemma case9_regular rho : 0 <= rho ->
  regular_root 2 case9 case9_jac [1; 1] rho 20 (21 / 10) 20.
Proof.
  intros Pr; constructor.
  - reflexivity.
  - lra.
  - intros [|[|i]] Hi; [| |lia]; unfold vent, nsq; cbn; lra.
  - intros x [Lx _]; destruct (len2 x Lx) as (a & c & ->); reflexivity.
  - intros x [Lx _]; destruct (len2 x Lx) as (a & c & ->).
    split; [reflexivity|]; intros [|[|k]] Hk; try reflexivity; lia.
  - apply case9_partials.
  - intros x y s i j _ _ Lx [Ly N] Hi Hj.
    destruct (len2 x Lx) as (a & c & ->); destruct (len2 y Ly) as (a' & c' & ->).
    specialize (N O ltac:(lia)); unfold vent in N; cbn [nth] in N.
    assert (0 <= s) by (pose proof (Rabs_pos (a' - a)); lra).
    destruct i as [|[|i]]; [| |lia]; (destruct j as [|[|j]]; [| |lia]);
      unfold ment, vent; cbn [nth case9_jac value_of broyden1965_case9_jac index nth_error bind];
      cbn [nmul nofZ n0 Num_R].
    + replace (IZR (-20) * a' - IZR (-20) * a) with (- (20 * (a' - a))) by lra.
      rewrite Rabs_Ropp, Rabs_mult, (Rabs_right 20) by lra.
      apply Rmult_le_compat_l; [lra|exact N].
    + unfold Rminus; rewrite Rplus_opp_r, Rabs_R0; lra.
    + unfold Rminus; rewrite Rplus_opp_r, Rabs_R0; lra.
    + unfold Rminus; rewrite Rplus_opp_r, Rabs_R0; lra.
  - intros v c Lv Pc B; destruct (len2 v Lv) as (a & e & ->).
    pose proof (B O ltac:(lia)) as B0; pose proof (B 1%nat ltac:(lia)) as B1.
    unfold app, ment, vent in B0, B1; cbn in B0, B1.
    revert B0 B1; intros B0 B1 i Hi; unfold vent.
    assert (A1 : Rabs a <= c) by (revert B1; unfold Rabs; repeat destruct Rcase_abs; lra).
    destruct i as [|[|i]]; [| |lia]; cbn [nth]; [lra|].
    revert A1 B0; unfold Rabs; repeat destruct Rcase_abs; lra.
  - intros [|[|i]] [|[|j]] Hi Hj; try lia; unfold ment; cbn; unfold Rabs; destruct Rcase_abs; lra.
Qed.

(** From every point within 1/200 of the solution (1, 1), at most six iterations
    lead to residuals of at most 10^-6; after [k] iterations the error is at most
    (3/4)^(2^k-1)/200. *)
Example C67_case : forall x0 maxit rf, near 2 [1; 1] (1 / 200) x0 -> (6 <= maxit)%nat ->
  rootfinder_new (mkSolverParameters 2 (Fin (1 / 1000000)) maxit NewtonRaphson false) (lift x0)
    (jac_iteratives 2) (all_abs 2) = Ret rf ->
  exists rf' s' y,
    solve (model_from_function_and_jacobian case9 case9_jac) rf (user_model_new 2)
    = Ret (rf', s', Ok tt) /\ (rf_iter rf' <= 6)%nat /\ um_inputs s' = lift y /\
    near 2 [1; 1] ((3 / 4) ^ (2 ^ rf_iter rf' - 1) * (1 / 200)) y.
Proof.
  intros x0 maxit rf Nx LM HN.
  assert (SP : spread 2 (21 / 10) 20 (1 / 200) = 42 / 100) by (unfold spread; cbn [INR]; lra).
  destruct (C67_quadratic_convergence 2 case9 case9_jac case9 case9_jac [1; 1] (1 / 200) 20 (21 / 10) 20
    x0 (1 / 1000000) maxit rf) as (rf' & s' & y & G & N & B & OUT & FAST).
  - intros x [Lx _]; destruct (len2 x Lx) as (a & c & ->); reflexivity.
  - intros x [Lx _]; destruct (len2 x Lx) as (a & c & ->); reflexivity.
  - apply case9_regular; lra.
  - rewrite SP; lra.
  - exact Nx.
  - exact HN.
  - rewrite SP in *.
    assert (Q : 0 <= ratio (42 / 100) <= 3 / 4) by (unfold ratio; lra).
    destruct (FAST 6%nat LM) as [F1 F2].
    { apply Rle_trans with (INR 2 * (20 + 20 * (1 / 200)) * ((3 / 4) ^ (2 ^ 6 - 1) * (1 / 200))).
      - apply Rmult_le_compat_l; [cbn [INR]; lra|]; apply Rmult_le_compat_r; [lra|].
        apply pow_incr; exact Q.
      - change (2 ^ 6 - 1)%nat with 63%nat; cbn [INR pow]; lra. }
    exists rf', s', y; split; [exact F1|]; split; [exact F2|]; split; [exact G|].
    eapply near_le; [|exact N]; apply Rmult_le_compat_r; [lra|]; apply pow_incr; exact Q.
Qed.

(** The hypotheses of the case can be met. *)
Example C67_case_exists : exists rf, near 2 [1; 1] (1 / 200) [201 / 200; 199 / 200] /\
  rootfinder_new (mkSolverParameters 2 (Fin (1 / 1000000)) 6 NewtonRaphson false)
    (lift [201 / 200; 199 / 200]) (jac_iteratives 2) (all_abs 2) = Ret rf.
Proof.
  eexists; split; [|reflexivity].
  split; [reflexivity|]; intros [|[|i]] Hi; [| |lia]; unfold vent; cbn [nth];
    unfold Rabs; destruct Rcase_abs; lra.
Qed.

(** ** C68 *)

(** The perturbations chosen at the points of [D] by the iterative variables
    [its]: real, not zero, at most [delta]. *)
Definition small_steps (n : nat) (its : list (iterative XR)) (D : vec R -> Prop)
  (step : vec R -> vec R) (delta : R) : Prop :=
  forall x, D x -> compute_perturbations its (lift x) = Ret (lift (step x)) /\ length (step x) = n /\
  forall j, (j < n)%nat -> vent (step x) j <> 0 /\ Rabs (vent (step x) j) <= delta.

Section FiniteDifferences.
Context (n : nat) (f : vec R -> vec R) (J : vec R -> mat R) (xs : vec R) (rho delta ell b mu : R)
  (its : list (iterative XR)) (step : vec R -> vec R)
  (RR : regular_root n f J xs (rho + delta) ell b mu) (P0 : 0 <= rho) (Pd : 0 <= delta)
  (ST : small_steps n its (near n xs rho) step delta)
  (U : vec R -> vec R) (EU : forall x, length x = n -> near n xs (rho + delta) x -> U x = f x)
  (FDE : forall x i j, near n xs rho x -> (i < n)%nat -> (j < n)%nat ->
    ment (fd_matrix n U x (step x)) i j
    = (vent (U (shift x j (vent (step x) j))) i - vent (U x) i) / vent (step x) j).

Notation FD := (fun x => fd_matrix n U x (step x)).

Lemma fd_near x j t : near n xs rho x -> (j < n)%nat -> within (vent (step x) j) t ->
  near n xs (rho + delta) (shift x j t) /\ near n x delta (shift x j t).
Proof.
  intros N Hj W; destruct (ST x N) as (_ & _ & S1); destruct (S1 j Hj) as [_ S2].
  assert (N1 : near n x delta (shift x j t)).
  { apply near_le with (Rabs t); [|apply near_shift; exact (proj1 N)].
    pose proof (within_abs _ _ W); lra. }
  split; [apply near_trans with x; assumption|exact N1].
Qed.

Lemma within_self d : within d d.
Proof. unfold within; lra. Qed.

Lemma near_big x : near n xs rho x -> near n xs (rho + delta) x.
Proof. intros N; apply near_le with rho; [lra|exact N]. Qed.

(** Every entry is a partial derivative at a point within [delta]. *)
Lemma fd_entry_is_partial x i j : near n xs rho x -> (i < n)%nat -> (j < n)%nat ->
  exists y, near n xs (rho + delta) y /\ near n x delta y /\ ment (FD x) i j = ment (J y) i j.
Proof.
  intros N Hi Hj; destruct (ST x N) as (_ & _ & S1); destruct (S1 j Hj) as [S2 S3].
  assert (FP : fd_points n (near n xs (rho + delta)) x (step x)).
  { intros k Hk; apply fd_near; [exact N|exact Hk|apply within_self]. }
  destruct (mean_value n (near n xs (rho + delta)) f J x i j (vent (step x) j)
    (rr_partials _ _ _ _ _ _ _ _ RR) (proj1 N) Hi Hj) as (t & W & E).
  { intros t W; apply fd_near; assumption. }
  exists (shift x j t); destruct (fd_near x j t N Hj W) as [N1 N2].
  split; [exact N1|]; split; [exact N2|].
  rewrite FDE by assumption; rewrite !EU.
  - rewrite E; field; exact S2.
  - exact (proj1 N).
  - apply near_big; exact N.
  - rewrite shift_length; exact (proj1 N).
  - apply FP; exact Hj.
Qed.

Lemma fd_attracting : spread n b ell (rho + delta) < 1 ->
  attracting n U FD xs rho (b / (1 - spread n b ell (rho + delta))) (INR n * ell)
    (INR n * (ell * delta)) (INR n * (mu + ell * (rho + delta))).
Proof.
  intros SP; destruct (rr_pos _ _ _ _ _ _ _ _ RR) as (P1 & P2 & P3 & P4).
  assert (Pn : 0 <= INR n) by apply pos_INR.
  assert (P5 : 0 <= ell * (rho + delta)) by (apply Rmult_le_pos; assumption).
  assert (P6 : 0 <= ell * delta) by (apply Rmult_le_pos; assumption).
  constructor.
  - exact (rr_len _ _ _ _ _ _ _ _ RR).
  - split; [exact P0|]; split; [apply div_pos; lra|].
    split; [apply Rmult_le_pos; assumption|]; split; apply Rmult_le_pos; lra.
  - intros x N; apply near_big in N; rewrite EU by (try exact N; exact (proj1 N)).
    exact (rr_fun _ _ _ _ _ _ _ _ RR x N).
  - intros x N; split; [apply fd_matrix_is_mat|].
    apply (bounded_below_perturbed n (J xs)); auto.
    + exact (rr_regular _ _ _ _ _ _ _ _ RR).
    + intros i j Hi Hj; destruct (fd_entry_is_partial x i j N Hi Hj) as (y & N1 & N2 & E).
      rewrite E; apply (rr_close n f J xs (rho + delta) ell b mu RR); auto.
  - intros x r N Pr Nr i Hi; assert (NB := near_big x N).
    rewrite EU by (try exact NB; exact (proj1 N)).
    replace ((INR n * ell * r + INR n * (ell * delta)) * r) with (INR n * (ell * (r + delta)) * r) by lra.
    apply (linear_from_partials n (near n xs (rho + delta)) f J (FD x) xs x r (ell * (r + delta))); auto.
    + exact (rr_partials _ _ _ _ _ _ _ _ RR).
    + exact (rr_len _ _ _ _ _ _ _ _ RR).
    + intros y Ny; apply near_le with r; [lra|exact Ny].
    + exact (rr_root _ _ _ _ _ _ _ _ RR).
    + intros y k l Ny Nx Hk Hl; destruct (fd_entry_is_partial x k l N Hk Hl) as (w & N1 & N2 & E).
      rewrite E; apply (rr_lipschitz _ _ _ _ _ _ _ _ RR); auto.
      * apply near_le with r; [lra|exact Ny].
      * exact (proj1 Ny).
      * apply near_trans with x; [apply near_sym; [exact (proj1 N)|exact Nx]|exact N2].
  - intros x r N Pr Nr i Hi; assert (NB := near_big x N).
    rewrite EU by (try exact NB; exact (proj1 N)).
    apply (rr_small n f J xs (rho + delta) ell b mu RR); assumption.
Qed.
End FiniteDifferences.

(** Newton-Raphson with finite differences of perturbations at most [delta]: the
    distance after [k] iterations is at most [q^k rho]. *)
Theorem C68_linear_convergence : forall n func (f : vec R -> vec R) (J : vec R -> mat R)
  xs rho delta ell b mu x0 tol maxit its step rf,
  (forall x, near n xs (rho + delta) x -> func (lift x) = lift (f x)) ->
  regular_root n f J xs (rho + delta) ell b mu -> 0 <= rho -> 0 <= delta ->
  Forall unlimited its -> length its = n -> small_steps n its (near n xs rho) step delta ->
  spread n b ell (rho + delta) < 1 / 2 ->
  near n xs rho x0 ->
  rootfinder_new (mkSolverParameters n (Fin tol) maxit NewtonRaphson false) (lift x0)
    its (all_abs n) = Ret rf ->
  let q := ratio (spread n b ell (rho + delta)) in
  exists rf' s' y,
    um_inputs s' = lift y /\ near n xs (q ^ rf_iter rf' * rho) y /\
    (rf_iter rf' <= maxit)%nat /\
    (solve (model_from_function func) rf (user_model_new n)
     = Ret (rf', s', Ok tt) /\ (forall i, (i < n)%nat -> Rabs (vent (f y) i) <= tol) \/
     solve (model_from_function func) rf (user_model_new n)
     = Ret (rf', s', Err NonConvergenceError) /\ rf_iter rf' = maxit /\
     amax (f y) > tol) /\
    forall K, (K <= maxit)%nat ->
      INR n * (mu + ell * (rho + delta)) * (q ^ K * rho) <= tol ->
      solve (model_from_function func) rf (user_model_new n)
      = Ret (rf', s', Ok tt) /\ (rf_iter rf' <= K)%nat.
Proof.
  intros n func f J xs rho delta ell b mu x0 tol maxit its step rf Hf RR P0 Pd UL LI ST SP Nx HN q.
  apply new_fields in HN.
  destruct (rr_pos _ _ _ _ _ _ _ _ RR) as (P1 & P2 & P3 & P4).
  assert (Pn : 0 <= INR n) by apply pos_INR.
  assert (P5 : 0 <= ell * (rho + delta)) by (apply Rmult_le_pos; assumption).
  assert (S0 : 0 <= spread n b ell (rho + delta)) by (apply spread_pos; assumption).
  set (D := near n xs (rho + delta)).
  assert (Hf' : forall x, D x -> length x = n -> func (lift x) = lift (f x) /\ length (f x) = n)
    by (intros x Dx _; split; [apply Hf, Dx|exact (rr_fun _ _ _ _ _ _ _ _ RR x Dx)]).
  assert (FP := adapter_problem n D func f Hf' default_jacobian_provided (default_get_jacobian um_inputs)).
  assert (WB := abs_well_behaved _ n _ _ _ _ FP).
  change (mkModel um_problem_size um_set_iteratives um_inputs (um_evaluate func) um_get_residuals
    default_jacobian_provided (default_get_jacobian um_inputs) default_get_memory default_set_memory
    show_infallible show_infallible) with (model_from_function func) in WB.
  set (M := model_from_function func) in *.
  set (U := residuals_of f (fun _ => vzeros n)) in *.
  assert (EU : forall x, length x = n -> near n xs (rho + delta) x -> U x = f x).
  { intros x _ N; apply residuals_of_zero; exact (rr_fun _ _ _ _ _ _ _ _ RR x N). }
  assert (FPT : forall x, near n xs rho x -> fd_points n D x (step x)).
  { intros x N j Hj; apply (fd_near n xs rho delta its step ST); auto using within_self. }
  assert (FDE : forall x i j, near n xs rho x -> (i < n)%nat -> (j < n)%nat ->
    ment (fd_matrix n U x (step x)) i j
    = (vent (U (shift x j (vent (step x) j))) i - vent (U x) i) / vent (step x) j).
  { intros x i j N Hi Hj; apply (fd_matrix_entry M n _ _ D _ _ U _ WB); auto; [|exact (proj1 N)].
    apply near_big; assumption. }
  assert (AT := fd_attracting n f J xs rho delta ell b mu its step RR P0 Pd ST U EU FDE ltac:(lra)).
  set (beta := b / (1 - spread n b ell (rho + delta))) in *.
  assert (FQ : factor beta (INR n * ell) (INR n * (ell * delta)) rho = q).
  { unfold factor, q, ratio, beta, spread; field; fold (spread n b ell (rho + delta)); unfold spread in *; lra. }
  assert (QB : 0 <= q < 1) by (apply ratio_bounds; lra).
  assert (NC : newton_config n (all_abs n) rf) by (subst rf; repeat split; assumption).
  assert (MI : sp_max_iter (rf_parameters rf) = maxit) by (subst rf; reflexivity).
  destruct (attracted_solve M n (all_abs n) (adapter_good n) D f (fun _ => vzeros n) U WB
    its (fun x => fd_matrix n U x (step x)) (fun x => fd_last n x (step x)) xs rho beta
    (INR n * ell) (INR n * (ell * delta)) (INR n * (mu + ell * (rho + delta))) AT)
    with (rf := rf) (s := user_model_new n (F := XR)) (x0 := x0) (tol := tol) (r := rho)
    as (rf' & s' & y & G & N1 & N2 & B & OUT & FAST); try (subst rf; reflexivity); try lra; auto.
  { intros x N; apply near_big; assumption. }
  { intros rf1 x s E1 N _; right; exists (step x); rewrite E1.
    destruct (ST x N) as (T1 & T2 & T3).
    split; [reflexivity|]; split; [|split; reflexivity].
    split; [exact T1|]; split; [exact T2|]; split; [intros; apply T3; assumption|apply FPT; exact N]. }
  { intros SD; replace (sp_damping (rf_parameters rf)) with false in SD by (subst rf; reflexivity).
    discriminate. }
  { apply fresh_good. }
  assert (N3 : D y) by (apply near_big; assumption).
  rewrite MI in *; rewrite EU in OUT by (try exact N3; exact (proj1 N2)).
  exists rf', s', y; split; [exact G|].
  assert (RQ : forall k, radius beta (INR n * ell) (INR n * (ell * delta)) rho k <= q ^ k * rho).
  { intros k; apply (radius_bounds n U _ xs rho beta (INR n * ell) (INR n * (ell * delta)) _ AT);
      try lra. }
  split; [eapply near_le; [apply RQ|exact N1]|].
  split; [exact B|]; split.
  - destruct OUT as [[O1 O2]|(O1 & O2 & O3)]; [left|right; auto].
    split; [exact O1|]; intros i Hi; apply amax_le with (t := tol); [|exact O2|].
    + pose proof (amax_nonneg (f y)); lra.
    + rewrite (rr_fun _ _ _ _ _ _ _ _ RR y N3); exact Hi.
  - intros K HK BK; apply FAST; [exact HK|]; eapply Rle_trans; [|exact BK].
    apply Rmult_le_compat_l; [apply Rmult_le_pos; lra|apply RQ].
Qed.
Print Assumptions C68_linear_convergence.

(** The default perturbations are at most 5e-8 times the size of the variables,
    or 5e-8. *)
Definition default_step (a : R) : R :=
  if Rltb (5 / 100000000) (Rabs a * (5 / 100000000)) then Rabs a * (5 / 100000000)
  else 5 / 100000000.

Lemma default_perturbation a :
  compute_perturbation default_iterative_params_fd (Fin a) = Fin (default_step a).
Proof.
  unfold compute_perturbation, default_iterative_params_fd, ndec.
  cbn [fd_dx_abs fd_dx_rel fd_method].
  change (ndiv (nofZ 5) (nofZ 100000000)) with (ndiv (Fin 5) (Fin 100000000)).
  rewrite (fin_div 5 100000000) by lra.
  change (nmul (nabs (Fin a)) (Fin (5 / 100000000))) with (Fin (Rabs a * (5 / 100000000))).
  unfold nmax, nisnan, default_step; cbn [neqb nltb Num_XR xeqb xltb].
  replace (Reqb (5 / 100000000) (5 / 100000000)) with true by (symmetry; apply Reqb_true; reflexivity).
  replace (Reqb (Rabs a * (5 / 100000000)) (Rabs a * (5 / 100000000))) with true
    by (symmetry; apply Reqb_true; reflexivity).
  cbn [negb]; destruct Rltb; reflexivity.
Qed.

Lemma default_perturbations : forall x : vec R,
  compute_perturbations (fd_iteratives (length x)) (lift x) = Ret (lift (map default_step x)).
Proof.
  induction x as [|a x IH]; [reflexivity|].
  cbn [length]; unfold fd_iteratives, default_vec_iteratives_fd; cbn [repeat map lift compute_perturbations].
  cbn [it_compute_perturbation iterative_of_params_fd bind].
  change (map iterative_of_params_fd (repeat default_iterative_params_fd (length x)))
    with (fd_iteratives (length x)).
  change (map Fin x) with (lift x); rewrite IH, default_perturbation; reflexivity.
Qed.

Lemma default_small_steps n xs rho m : 1 <= m ->
  (forall j, (j < n)%nat -> Rabs (vent xs j) + rho <= m) ->
  small_steps n (fd_iteratives n) (near n xs rho) (map default_step) (5 / 100000000 * m).
Proof.
  intros P1 HM x [Lx N]; split; [|split].
  - rewrite <- Lx; apply default_perturbations.
  - rewrite map_length; exact Lx.
  - intros j Hj; specialize (N j Hj); specialize (HM j Hj).
    assert (E : vent (map default_step x) j = default_step (vent x j)).
    { unfold vent; rewrite (nth_indep _ _ (default_step 0)) by (rewrite map_length, Lx; exact Hj).
      apply (map_nth default_step). }
    assert (B : Rabs (vent x j) <= m).
    { replace (vent x j) with (vent x j - vent xs j + vent xs j) by lra.
      eapply Rle_trans; [apply Rabs_triang|]; lra. }
    rewrite E; unfold default_step; destruct (Rltb _ _) eqn:T; [apply Rltb_true in T|];
      (split; [lra|]); rewrite Rabs_right by lra; lra.
Qed.

(** Broyden's problem 9 with the default finite differences: at most 43
    iterations. *)
Example C68_case : forall x0 maxit rf, near 2 [1; 1] (1 / 200) x0 -> (43 <= maxit)%nat ->
  rootfinder_new (mkSolverParameters 2 (Fin (1 / 1000000)) maxit NewtonRaphson false) (lift x0)
    (fd_iteratives 2) (all_abs 2) = Ret rf ->
  exists rf' s' y,
    solve (model_from_function case9) rf (user_model_new 2) = Ret (rf', s', Ok tt) /\
    (rf_iter rf' <= 43)%nat /\ um_inputs s' = lift y /\
    near 2 [1; 1] ((3 / 4) ^ rf_iter rf' * (1 / 200)) y.
Proof.
  intros x0 maxit rf Nx LM HN.
  set (d := 5 / 100000000 * 2).
  assert (SP : spread 2 (21 / 10) 20 (1 / 200 + d) = 84 * (1 / 200 + d))
    by (unfold spread; cbn [INR]; lra).
  destruct (C68_linear_convergence 2 case9 case9 case9_jac [1; 1] (1 / 200) d 20 (21 / 10) 20
    x0 (1 / 1000000) maxit (fd_iteratives 2) (map default_step) rf)
    as (rf' & s' & y & G & N & B & OUT & FAST).
  - intros x [Lx _]; destruct (len2 x Lx) as (a & c & ->); reflexivity.
  - apply case9_regular; unfold d; lra.
  - lra.
  - unfold d; lra.
  - apply default_fd_unlimited.
  - reflexivity.
  - apply default_small_steps; [lra|]; intros [|[|j]] Hj; [| |lia]; unfold vent; cbn [nth];
      rewrite Rabs_right; lra.
  - rewrite SP; unfold d; lra.
  - exact Nx.
  - exact HN.
  - rewrite SP in *.
    assert (Q : 0 <= ratio (84 * (1 / 200 + d)) <= 3 / 4).
    { split; [apply ratio_bounds; unfold d; lra|]; unfold ratio.
      apply Rmult_le_reg_r with (1 - 84 * (1 / 200 + d)); [unfold d; lra|].
      replace (84 * (1 / 200 + d) / (1 - 84 * (1 / 200 + d)) * (1 - 84 * (1 / 200 + d)))
        with (84 * (1 / 200 + d)) by (field; unfold d; lra).
      unfold d; lra. }
    destruct (FAST 43%nat LM) as [F1 F2].
    { apply Rle_trans with (INR 2 * (20 + 20 * (1 / 200 + d)) * ((3 / 4) ^ 43 * (1 / 200))).
      - apply Rmult_le_compat_l; [unfold d; cbn [INR]; lra|]; apply Rmult_le_compat_r; [lra|].
        apply pow_incr; exact Q.
      - unfold d; cbn [INR pow]; lra. }
    exists rf', s', y; split; [exact F1|]; split; [exact F2|]; split; [exact G|].
    eapply near_le; [|exact N]; apply Rmult_le_compat_r; [lra|]; apply pow_incr; exact Q.
Qed.
