(** C71: below the root of an increasing function the residual is negative and
    every quasi-Newton update moves away from the root. *)
From Coq Require Import Reals Lra.
From Verif Require Import Base Num Linalg Residuals Iteratives UserModel Jacobian Solver
  RNum LuFacts XR PropsQuasi PropsFD ExactFacts ExactRun PropsExact Props1d QuasiRun PropsSecant.
Open Scope R_scope.

(** The iterates: a first step of Newton's method, then the secant through the
    last two points, followed in the wrong direction. *)
Fixpoint away_pair (g dg : R -> R) (x0 : R) (k : nat) : R * R :=
  match k with
  | O => (x0, x0 - g x0 / dg x0)
  | S k' => let '(p, a) := away_pair g dg x0 k' in
            (a, a + g a * (a - p) / (g a - g p))
  end.
Definition away (g dg : R -> R) (x0 : R) (k : nat) : R := fst (away_pair g dg x0 k).

Lemma away_unfold g dg x0 :
  away g dg x0 0 = x0 /\ away g dg x0 1 = x0 - g x0 / dg x0 /\
  forall k, let p := away g dg x0 k in let a := away g dg x0 (S k) in
    away g dg x0 (S (S k)) = a + g a * (a - p) / (g a - g p).
Proof.
  split; [reflexivity|]; split; [reflexivity|]; intros k; unfold away; cbn [away_pair].
  destruct (away_pair g dg x0 k) as [p a]; reflexivity.
Qed.

Section Increasing.
Context (g dg : R -> R) (r : R) (INC : forall a b, a < b -> g a < g b) (ROOT : g r = 0).

Lemma below a : a < r -> g a < 0.
Proof. rewrite <- ROOT; apply INC. Qed.

Lemma chord_positive p a : a <> p -> 0 < (a - p) / (g a - g p).
Proof.
  intros N; destruct (Rtotal_order a p) as [L|[L|L]]; [| contradiction |].
  - assert (I := INC a p L).
    replace ((a - p) / (g a - g p)) with ((p - a) / (g p - g a)) by (field; lra).
    apply Rdiv_lt_0_compat; lra.
  - assert (I := INC p a L); apply Rdiv_lt_0_compat; lra.
Qed.

Lemma gap_nonzero p a : a <> p -> g a - g p <> 0.
Proof.
  intros N; destruct (Rtotal_order a p) as [L|[L|L]]; [| contradiction |];
    [assert (I := INC a p L)|assert (I := INC p a L)]; lra.
Qed.

(** One step from [a] below the root, whatever the point before. *)
Lemma away_step p a : a <> p -> a < r -> a + g a * (a - p) / (g a - g p) < a.
Proof.
  intros N La; assert (G := below a La); assert (Q := chord_positive p a N).
  replace (g a * (a - p) / (g a - g p)) with (- (- g a * ((a - p) / (g a - g p))))
    by (field; apply gap_nonzero; exact N).
  assert (0 < - g a * ((a - p) / (g a - g p))) by (apply Rmult_lt_0_compat; lra); lra.
Qed.

Notation M := (model_from_function_and_jacobian (vector_of g) (matrix_of dg)).
Notation pt := (at_point M 1 (adapter_good 1) (fun _ => True) (one_dim g) (fun _ => vzeros 1)).
Notation U := (residuals_of (one_dim g) (fun _ => vzeros 1)).
Notation E := (fun x => vabs (U x)).

Lemma err_below a : a < r -> amax (E [a]) = - g a.
Proof.
  intros Ha; cbv beta; rewrite amax_vabs, residuals_1; cbn [amax fold_left].
  change (nabs (g a)) with (Rabs (g a)); rewrite Rabs_left; [reflexivity|apply below; exact Ha].
Qed.

Context (tol : R) (qm : quasi_newton_method) (UP : updating qm).

(** The rootfinder between two iterations, after a step from [p] to [a]. *)
Definition after_below (p a : R) (rf : rootfinder XR) : Prop :=
  plain 1 (all_abs 1) (QuasiNewton qm) rf /\ sp_damping (rf_parameters rf) = false /\
  sp_tolerance (rf_parameters rf) = Fin tol /\
  rf_valid_last rf = true /\
  scalar_jacobian qm (rf_jacobian rf) /\ rf_iteratives_step rf = Some [Fin (a - p)] /\
  rf_residuals_step rf = Some [Fin (- (g a - g p))] /\ rf_residuals_current rf = Some [Fin (- g a)].

Lemma stored_below rf j p a : plain 1 (all_abs 1) (QuasiNewton qm) rf ->
  sp_damping (rf_parameters rf) = false ->
  sp_tolerance (rf_parameters rf) = Fin tol -> scalar_jacobian qm j -> a < r -> p < r ->
  after_below p a (next_rf E rf j [p] [a]).
Proof.
  intros PL HD HT SJ Ha Hp; split; [apply next_rf_plain; exact PL|].
  unfold next_rf.
  destruct (stored_fields E (set_jacobian (set_iter rf (S (rf_iter rf))) j) [p] [a])
    as (F1 & F2 & F3 & F4 & F5 & F6 & F7).
  rewrite F1, F2, F7; split; [exact HD|]; split; [exact HT|]; split; [reflexivity|]; split; [exact SJ|].
  unfold stored; cbn [set_jacobian set_iter rf_parameters].
  destruct PL as (_ & _ & _ & _ & ->).
  assert (EB : forall b, b < r -> vabs (U [b]) = [- g b]).
  { intros b Hb; rewrite residuals_1; cbn [vabs map]; change (nabs (g b)) with (Rabs (g b)).
    rewrite Rabs_left; [reflexivity|apply below; exact Hb]. }
  assert (GAP : vsub_raw [- g a] [- g p] = [- (g a - g p)]).
  { cbn [vsub_raw map2]; f_equal; change (- g a - - g p = - (g a - g p)); ring. }
  destruct qm as [|m|m]; [exfalso; apply UP; reflexivity| |];
    cbn [set_steps set_valid rf_iteratives_step rf_residuals_step rf_residuals_current];
    rewrite !EB by assumption; rewrite GAP; repeat split; reflexivity.
Qed.

(** An iteration after the first one. *)
Lemma away_iteration rf s p a : after_below p a rf -> pt [a] s -> a <> p -> a < r ->
  let w := a + g a * (a - p) / (g a - g p) in
  exists rf' s', iteration M rf s = Ret (rf', s', Ok (lift (E [w]))) /\ after_below a w rf' /\ pt [w] s' /\
    rf_iter rf' = S (rf_iter rf) /\ rf_parameters rf' = rf_parameters rf.
Proof.
  intros (PL & HD & HT & HV & SJ & E1 & E2 & E3) HA Na Ha w.
  assert (W := away_step p a Na Ha); fold w in W.
  assert (G := below a Ha); assert (GN := gap_nonzero p a Na).
  destruct (scalar_step qm (set_iter rf (S (rf_iter rf))) (a - p) (- (g a - g p)) (- g a) UP SJ E1 E2 E3
    ltac:(lra) ltac:(lra) ltac:(lra)) as (j & EA & SJ' & EI).
  assert (PW : newton_point U [[(a - p) / - (g a - g p)]] [a] = [w]).
  { rewrite point_1; f_equal; unfold w; field; lra. }
  destruct (iteration_approx M 1 (all_abs 1) (adapter_good 1) (fun _ => True) (one_dim g)
    (fun _ => vzeros 1) U E (WB1 g dg) qm rf [a] s j [[(a - p) / - (g a - g p)]] PL) as (s' & P' & EQ); auto.
  - apply SJ.
  - split; [reflexivity|]; intros [|i] Hi; [reflexivity|lia].
  - left; exact HD.
  - rewrite PW in EQ, P'; rewrite EQ.
    exists (next_rf E rf j [a] [w]), s'; split; [reflexivity|].
    split; [apply stored_below; auto; lra|]; split; [exact P'|].
    unfold next_rf.
    destruct (stored_fields E (set_jacobian (set_iter rf (S (rf_iter rf))) j) [a] [w])
      as (F1 & F2 & F3 & F4 & F5 & F6 & F7).
    rewrite F6, F2; split; reflexivity.
Qed.

Notation u := (away g dg).
Context (x0 : R) (B0 : x0 < r) (B1 : u x0 1 < r) (N1 : u x0 1 <> u x0 0).

Lemma away_decreases k : u x0 (S (S k)) < u x0 (S k) /\ u x0 (S k) < r.
Proof.
  destruct (away_unfold g dg x0) as (_ & _ & EU).
  induction k as [|k [I1 I2]].
  - split; [|exact B1]; rewrite (EU O); apply away_step; assumption.
  - split; [|lra]; rewrite (EU (S k)); apply away_step; lra.
Qed.

Lemma away_errors k : - g (u x0 1) <= - g (u x0 (S k)).
Proof.
  induction k as [|k IH]; [lra|].
  destruct (away_decreases k) as [D _]; assert (I := INC _ _ D); lra.
Qed.

Context (BIG : tol < - g (u x0 1)).

Lemma away_iterate : forall left fuel rf s k, (left < fuel)%nat ->
  after_below (u x0 k) (u x0 (S k)) rf -> pt [u x0 (S k)] s ->
  rf_iter rf = S k -> (rf_iter rf + left = sp_max_iter (rf_parameters rf))%nat ->
  exists rf' s', rf_parameters rf' = rf_parameters rf /\
    iterate M fuel rf s (Fin (amax (E [u x0 (S k)])))
      = Ret (rf', s', Ok (Fin (amax (E [u x0 (S k + left)%nat])))) /\
    pt [u x0 (S k + left)%nat] s' /\ rf_iter rf' = (S k + left)%nat.
Proof.
  induction left as [|left IH]; intros fuel rf s k LF AF HA HI HN;
    (destruct fuel as [|fuel]; [lia|]); cbn [iterate].
  - replace (Nat.ltb (rf_iter rf) (sp_max_iter (rf_parameters rf))) with false
      by (symmetry; apply Nat.ltb_ge; lia).
    rewrite andb_false_r; exists rf, s; split; [reflexivity|].
    replace (S k + 0)%nat with (S k) by lia.
    split; [reflexivity|]; split; [exact HA|exact HI].
  - replace (Nat.ltb (rf_iter rf) (sp_max_iter (rf_parameters rf))) with true
      by (symmetry; apply Nat.ltb_lt; lia).
    destruct (away_decreases k) as [DK LK].
    rewrite andb_true_r; unfold ngtb; rewrite (proj1 (proj2 (proj2 AF))); cbn [nltb Num_XR xltb].
    cbv beta; replace (Rltb tol (amax (vabs (U [u x0 (S k)])))) with true.
    2: { symmetry; apply Rltb_true; rewrite err_below by exact LK.
         assert (A := away_errors k); lra. }
    assert (NK : u x0 (S k) <> u x0 k).
    { destruct k as [|k]; [exact N1|]; destruct (away_decreases k) as [D _]; lra. }
    destruct (away_iteration rf s (u x0 k) (u x0 (S k)) AF HA NK LK)
        as (rf1 & s1 & E1 & AF1 & A1 & I1 & P1).
    cbv zeta in *.
    destruct (away_unfold g dg x0) as (_ & _ & EU); specialize (EU k); cbv zeta in EU.
    rewrite <- EU in E1, AF1, A1; rewrite E1; cbn [bind]; rewrite lift_amax.
    destruct (IH fuel rf1 s1 (S k) ltac:(lia) AF1 A1 ltac:(lia) ltac:(rewrite I1, P1; lia))
      as (rf' & s' & K1 & K2 & K3 & K4).
    replace (S k + S left)%nat with (S (S k) + left)%nat by lia.
    exists rf', s'; split; [congruence|]; split; [exact K2|]; split; [exact K3|exact K4].
Qed.

Context (SLOPE : 0 < dg x0).

Lemma away_solve maxit rf : tol < - g x0 ->
  rootfinder_new (mkSolverParameters 1 (Fin tol) maxit (QuasiNewton qm) false) [Fin x0]
    (jac_iteratives 1) (all_abs 1) = Ret rf ->
  exists rf' s',
    solve M rf (user_model_new 1) = Ret (rf', s', Err NonConvergenceError) /\
    um_inputs s' = [Fin (u x0 maxit)] /\ rf_iter rf' = maxit.
Proof.
  intros BIG0 HN; apply new_fields in HN.
  assert (PL : plain 1 (all_abs 1) (QuasiNewton qm) rf).
  { subst rf; repeat split; apply default_jac_unlimited. }
  assert (HT : sp_tolerance (rf_parameters rf) = Fin tol) by (subst rf; reflexivity).
  assert (HD : sp_damping (rf_parameters rf) = false) by (subst rf; reflexivity).
  assert (H0 : rf_iter rf = O) by (subst rf; reflexivity).
  assert (HG : rf_initial_guess rf = lift [x0]) by (subst rf; reflexivity).
  assert (HM : sp_max_iter (rf_parameters rf) = maxit) by (subst rf; reflexivity).
  assert (CJ : jm_compute_at_next (rf_jacobian rf) = true) by (subst rf; reflexivity).
  clear HN.
  assert (U0 : u x0 0 = x0) by reflexivity.
  destruct (wb_eval _ _ _ _ _ _ _ _ _ (WB1 g dg) (user_model_new 1) [x0] (fresh_good 1) I eq_refl) as (s1 & E1 & P1).
  assert (PL' := PL); destruct PL' as (A1 & A2 & A3 & A4 & A6).
  unfold solve; rewrite HG, E1; cbn [bind]; unfold solve_from.
  rewrite (errors_at M 1 (all_abs 1) (adapter_good 1) (fun _ => True) (one_dim g) (fun _ => vzeros 1) U E
    (WB1 g dg) rf [x0] s1 A2 P1); cbn [bind].
  unfold when_debug; rewrite A1; cbn [bind]; rewrite lift_amax.
  assert (T0 : Rltb tol (amax (vabs (U [x0]))) = true).
  { apply Rltb_true; rewrite err_below by exact B0; lra. }
  rewrite HM; remember maxit as fuel eqn:EM; cbn [iterate]; rewrite HM; destruct fuel as [|left].
  - rewrite H0; rewrite andb_false_r; cbn [bind].
    exists rf, s1; unfold verdict, ngtb; rewrite HT; cbn [nltb Num_XR xltb].
    cbv beta; rewrite T0; split; [reflexivity|]; split; [apply P1|exact H0].
  - rewrite H0; cbn [Nat.ltb Nat.leb]; rewrite andb_true_r; unfold ngtb; rewrite HT; cbn [nltb Num_XR xltb].
    cbv beta; rewrite T0.
    assert (PW : newton_point U [[1 / dg x0]] [x0] = [u x0 1]).
    { rewrite point_1; f_equal; unfold away; cbn [away_pair fst]; field; lra. }
    destruct (iteration_computed M 1 (all_abs 1) (adapter_good 1) (fun _ => True) (one_dim g)
      (fun _ => vzeros 1) U E (WB1 g dg) (QuasiNewton qm) rf [x0] s1 [[dg x0]] [x0] [[1 / dg x0]] PL)
      as (s2 & P2 & EI2); auto.
    + right; exact CJ.
    + left; exists (one_dim_jac dg); split; [apply analytic_1|split; reflexivity].
    + rewrite lu_inverse_1; destruct (Reqb (dg x0) 0) eqn:Z; [apply Reqb_true in Z; lra|reflexivity].
    + left; exact HD.
    + rewrite PW in EI2, P2; rewrite EI2; cbn [bind]; rewrite lift_amax.
      set (j := exact_jacobian [[dg x0]] [[1 / dg x0]]) in *.
      assert (SJ : scalar_jacobian qm j).
      { split; [reflexivity|]; split.
        - exists (1 / dg x0); split; [reflexivity|].
          apply mult_nz; [lra|apply Rinv_neq_0_compat; lra].
        - destruct qm; auto; exists (dg x0); split; [reflexivity|lra]. }
      assert (AF := stored_below rf j x0 (u x0 1) PL HD HT SJ B1 B0).
      set (rf1 := next_rf E rf j [x0] [u x0 1]) in *.
      destruct (stored_fields E (set_jacobian (set_iter rf (S (rf_iter rf))) j) [x0] [u x0 1])
        as (F1 & F2 & F3 & F4 & F5 & F6 & F7).
      change (stored E _ _ _) with rf1 in F1, F2, F3, F4, F5, F6, F7.
      cbn in F2, F6.
      destruct (away_iterate left (S left) rf1 s2 0 ltac:(lia) AF P2
        ltac:(rewrite F6, H0; reflexivity) ltac:(rewrite F6, F2, H0, HM; lia))
        as (rf' & s' & K1 & K2 & K3 & K4).
      exists rf', s'; rewrite K2; cbn [bind]; split; [|split; [apply K3|exact K4]].
      unfold verdict, ngtb; rewrite K1, F2, HT; cbn [nltb Num_XR xltb].
      cbv beta; replace (Rltb tol (amax (vabs (U [u x0 (1 + left)%nat])))) with true; [reflexivity|].
      symmetry; apply Rltb_true; destruct (away_decreases left) as [_ LK].
      change (1 + left)%nat with (S left).
      rewrite err_below by exact LK; assert (A := away_errors left); lra.
Qed.
End Increasing.

(** ** C71 *)

(** An increasing function with root [r]; the guess and the first iterate (a step
    of Newton's method) are below the root, where the residual is negative.
    From there on every update (Broyden or Greenstadt, first or second, of the
    jacobian or of its inverse) follows the secant in the wrong direction: each
    iterate is further from the root than the one before and has a larger
    residual, so that no budget is enough. *)
Theorem C71_moves_away : forall g dg r x0 tol maxit qm rf,
  (forall a b, a < b -> g a < g b) -> g r = 0 -> 0 < dg x0 ->
  x0 < r -> x0 - g x0 / dg x0 < r -> tol < Rabs (g (x0 - g x0 / dg x0)) ->
  qm <> StationaryNewton ->
  rootfinder_new (mkSolverParameters 1 (Fin tol) maxit (QuasiNewton qm) false) [Fin x0]
    (jac_iteratives 1) (all_abs 1) = Ret rf ->
  exists u : nat -> R,
    u O = x0 /\ u 1%nat = x0 - g x0 / dg x0 /\
    (forall k, u (S (S k)) = u (S k) + g (u (S k)) * (u (S k) - u k) / (g (u (S k)) - g (u k))) /\
    (forall k, Rabs (u (S k) - r) < Rabs (u (S (S k)) - r) /\
               Rabs (g (u (S k))) < Rabs (g (u (S (S k))))) /\
  exists rf' s',
    solve (model_from_function_and_jacobian (vector_of g) (matrix_of dg)) rf (user_model_new 1)
    = Ret (rf', s', Err NonConvergenceError) /\
    um_inputs s' = [Fin (u maxit)] /\ rf_iter rf' = maxit.
Proof.
  intros g dg r x0 tol maxit qm rf INC ROOT SL B0 B1 BIG UP HN.
  destruct (away_unfold g dg x0) as (U0 & U1 & U2).
  assert (G0 := below g r INC ROOT x0 B0).
  assert (G1 := below g r INC ROOT _ B1).
  rewrite Rabs_left in BIG by exact G1.
  assert (Q : 0 < - g x0 / dg x0) by (apply Rdiv_lt_0_compat; lra).
  assert (L : x0 < x0 - g x0 / dg x0).
  { replace (g x0 / dg x0) with (- (- g x0 / dg x0)) by (field; lra); lra. }
  assert (I := INC _ _ L).
  rewrite <- U1 in B1, BIG, L, I.
  assert (N1 : away g dg x0 1 <> away g dg x0 0) by (rewrite U0; lra).
  exists (away g dg x0); split; [exact U0|]; split; [exact U1|]; split; [exact U2|].
  split.
  - intros k; destruct (away_decreases g dg r INC ROOT x0 B1 N1 k) as [D1 D2].
    assert (E1 := INC _ _ D1); assert (E2 := below g r INC ROOT _ D2).
    rewrite !Rabs_left by lra; lra.
  - apply (away_solve g dg r INC ROOT tol qm UP x0 B0 B1 N1 BIG SL maxit rf); [lra|exact HN].
Qed.
Print Assumptions C71_moves_away.

(** ** The property as stated is false *)

(** A regular root: the function has the derivative [dg], which is continuous,
    and does not vanish at the root. *)
Definition regular_root_1 (g dg : R -> R) (r : R) : Prop :=
  (forall x, derivable_pt_lim g x (dg x)) /\ continuity dg /\ g r = 0 /\ dg r <> 0.

(** [solve] succeeds from every guess close enough to the root, whatever the
    tolerance, with enough iterations. *)
Definition locally_convergent (m : resolution_method) (g dg : R -> R) (r : R) : Prop :=
  exists rho, 0 < rho /\ forall x0 tol, Rabs (x0 - r) < rho -> 0 < tol ->
  exists maxit rf rf' s',
    rootfinder_new (mkSolverParameters 1 (Fin tol) maxit m false) [Fin x0]
      (jac_iteratives 1) (all_abs 1) = Ret rf /\
    solve (model_from_function_and_jacobian (vector_of g) (matrix_of dg)) rf (user_model_new 1)
    = Ret (rf', s', Ok tt).

Definition bent (x : R) : R := 1 - exp (- x).
Definition bent' (x : R) : R := exp (- x).

Lemma bent_derivative x : derivable_pt_lim bent x (bent' x).
Proof.
  unfold bent, bent'.
  assert (D : derivable_pt_lim (fct_cte 1 - comp exp (- id)) x (0 - exp ((- id)%F x) * - 1)).
  { apply derivable_pt_lim_minus; [apply derivable_pt_lim_const|].
    apply derivable_pt_lim_comp.
    - apply derivable_pt_lim_opp, derivable_pt_lim_id.
    - apply derivable_pt_lim_exp. }
  change ((- id)%F x) with (- x) in D.
  replace (0 - exp (- x) * -1) with (exp (- x)) in D by ring; exact D.
Qed.

Lemma bent_regular : regular_root_1 bent bent' 0.
Proof.
  split; [exact bent_derivative|]; split; [|split].
  - intros x; unfold bent'.
    apply (continuity_pt_comp (- id)%F exp x).
    + apply derivable_continuous_pt; exists (- 1); apply derivable_pt_lim_opp, derivable_pt_lim_id.
    + apply derivable_continuous_pt, derivable_pt_exp.
  - unfold bent; rewrite Ropp_0, exp_0; lra.
  - unfold bent'; rewrite Ropp_0, exp_0; lra.
Qed.

Lemma bent_increasing a b : a < b -> bent a < bent b.
Proof. intros L; unfold bent; assert (exp (- b) < exp (- a)) by (apply exp_increasing; lra); lra. Qed.

(** Newton's step from below stays below. *)
Lemma bent_step x : x < 0 -> x < x - bent x / bent' x < 0.
Proof.
  intros L; unfold bent, bent'.
  assert (P := exp_pos (- x)).
  assert (E : exp x * exp (- x) = 1) by (rewrite <- exp_plus, Rplus_opp_r; apply exp_0).
  assert (Q : (1 - exp (- x)) / exp (- x) = exp x - 1).
  { apply Rmult_eq_reg_r with (exp (- x)); [|lra].
    unfold Rdiv; rewrite Rmult_assoc, Rinv_l, Rmult_1_r by lra; rewrite Rmult_minus_distr_r, E; lra. }
  rewrite Q.
  assert (I1 := exp_ineq1 x ltac:(lra)).
  assert (I2 : exp x < 1) by (rewrite <- exp_0; apply exp_increasing; exact L); lra.
Qed.

Theorem C71_local_convergence_refuted : forall qm, qm <> StationaryNewton ->
  ~ (forall g dg r, regular_root_1 g dg r -> locally_convergent (QuasiNewton qm) g dg r).
Proof.
  intros qm UP ALL; destruct (ALL _ _ _ bent_regular) as (rho & Hr & H).
  set (x0 := - Rmin rho 1 / 2).
  assert (M0 : 0 < Rmin rho 1 <= rho).
  { split; [apply Rmin_glb_lt; lra|apply Rmin_l]. }
  assert (L0 : x0 < 0) by (unfold x0; lra).
  destruct (bent_step x0 L0) as [S1 S2].
  assert (NEG : bent (x0 - bent x0 / bent' x0) < 0).
  { assert (B := bent_increasing _ _ S2); replace (bent 0) with 0 in B; [exact B|].
    symmetry; apply bent_regular. }
  destruct (H x0 (- bent (x0 - bent x0 / bent' x0) / 2)) as (maxit & rf & rf' & s' & HN & HS).
  - unfold x0; rewrite Rabs_left; lra.
  - lra.
  - destruct (C71_moves_away bent bent' 0 x0 (- bent (x0 - bent x0 / bent' x0) / 2) maxit qm rf
      bent_increasing
      ltac:(apply bent_regular) ltac:(apply exp_pos) L0 S2
      ltac:(rewrite (Rabs_left _ NEG); lra) UP HN) as (u & _ & _ & _ & _ & rf2 & s2 & HS2 & _).
    rewrite HS2 in HS; discriminate.
Qed.
Print Assumptions C71_local_convergence_refuted.

(** The hypotheses of [C71_moves_away] on a concrete function. *)
Example C71_case : forall qm, qm <> StationaryNewton -> forall maxit, exists tol rf rf' s',
  0 < tol /\
  rootfinder_new (mkSolverParameters 1 (Fin tol) maxit (QuasiNewton qm) false) [Fin (- 1)]
    (jac_iteratives 1) (all_abs 1) = Ret rf /\
  solve (model_from_function_and_jacobian (vector_of bent) (matrix_of bent')) rf (user_model_new 1)
  = Ret (rf', s', Err NonConvergenceError).
Proof.
  intros qm UP maxit.
  destruct (bent_step (- 1) ltac:(lra)) as [S1 S2].
  assert (NEG : bent (- 1 - bent (- 1) / bent' (- 1)) < 0).
  { assert (B := bent_increasing _ _ S2); replace (bent 0) with 0 in B; [exact B|].
    symmetry; apply bent_regular. }
  set (tol := - bent (- 1 - bent (- 1) / bent' (- 1)) / 2).
  exists tol; eexists.
  destruct (C71_moves_away bent bent' 0 (- 1) tol maxit qm
    (mkRootFinder (mkSolverParameters 1 (Fin tol) maxit (QuasiNewton qm) false) [Fin (- 1)]
       (jac_iteratives 1) (all_abs 1) false 0 None jacobian_matrix_new None None None true)
    bent_increasing ltac:(apply bent_regular) ltac:(apply exp_pos) ltac:(lra) S2
    ltac:(rewrite (Rabs_left _ NEG); unfold tol; lra) UP eq_refl)
    as (u & _ & _ & _ & _ & rf2 & s2 & HS2 & _).
  exists rf2, s2; split; [unfold tol; lra|]; split; [|exact HS2]; reflexivity.
Qed.
