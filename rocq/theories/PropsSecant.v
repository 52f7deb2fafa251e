(** C70: in one variable every quasi-Newton update is the secant method, as long
    as the residuals are positive; on convex increasing functions it converges. *)
From Coq Require Import Reals Lra.
From Verif Require Import Base Num Linalg Residuals Iteratives UserModel Jacobian Solver
  RNum LuFacts XR PropsQuasi PropsFD ExactFacts ExactRun PropsExact Props1d QuasiRun.
Open Scope R_scope.

(** ** One update in one variable *)

(** The methods that update the jacobian or its inverse. *)
Definition updating (qm : quasi_newton_method) : Prop := qm <> StationaryNewton.

(** The stored jacobian between two iterations. *)
Definition scalar_jacobian (qm : quasi_newton_method) (j : jacobian_matrix XR) : Prop :=
  jm_compute_at_next j = false /\ (exists h, jm_inverse j = Some [[Fin h]] /\ h <> 0) /\
  match qm with
  | JacobianUpdate _ => exists a, jm_matrix j = Some [[Fin a]] /\ a <> 0
  | _ => True
  end.

Lemma scalar_quotient a b c : b <> 0 -> a / b = c -> xdiv (Fin a) (Fin b) = Fin c.
Proof. intros Nb <-; unfold xdiv; destruct (Req_EM_T b 0); [contradiction|reflexivity]. Qed.

Lemma mult_nz a b : a <> 0 -> b <> 0 -> a * b <> 0.
Proof. intros; apply Rmult_integral_contrapositive; auto. Qed.
Lemma nz_of_eq a b : b <> 0 -> a = b -> a <> 0.
Proof. intros N ->; exact N. Qed.

Ltac quotient_is c :=
  match goal with |- context [xdiv (Fin ?u) (Fin ?v)] => rewrite (scalar_quotient u v c) end.

Section Formulas.
Context (a s y c : R) (Na : a <> 0) (Ns : s <> 0) (Ny : y <> 0) (Nc : c <> 0).

Ltac scalar_formula d :=
  cbv -[xdiv Rdiv]; quotient_is d;
  [cbv -[Rdiv]; do 3 f_equal; unfold Rdiv; ring
  |repeat apply mult_nz; assumption
  |field; repeat split; assumption].

(** The update formulas on numbers: the new value is the slope of the step. *)
Lemma scalar_first_jac : broyden_first_jac [[Fin a]] [Fin s] [Fin y] = [[Fin (y / s)]].
Proof. scalar_formula (a - y / s). Qed.
Lemma scalar_second_jac : broyden_second_jac [[Fin a]] [Fin s] [Fin y] = [[Fin (y / s)]].
Proof. scalar_formula (a - y / s). Qed.
Lemma scalar_c_jac : quasi_method_jac [[Fin a]] [Fin s] [Fin y] [Fin c] = [[Fin (y / s)]].
Proof. scalar_formula (a - y / s). Qed.
Lemma scalar_greenstadt_jac : greenstadt_second_jac [[Fin a]] [Fin s] [Fin y] [Fin c] = [[Fin (y / s)]].
Proof. scalar_formula (a - y / s). Qed.
Lemma scalar_first_inv : broyden_first_inv [[Fin a]] [Fin s] [Fin y] = [[Fin (s / y)]].
Proof. scalar_formula (a - s / y). Qed.
Lemma scalar_second_inv : broyden_second_inv [[Fin a]] [Fin s] [Fin y] = [[Fin (s / y)]].
Proof. scalar_formula (a - s / y). Qed.
Lemma scalar_c_inv : quasi_method_inv [[Fin a]] [Fin s] [Fin y] [Fin c] = [[Fin (s / y)]].
Proof. scalar_formula (a - s / y). Qed.
End Formulas.

(** Every update of the jacobian, respectively of its inverse. *)
Lemma scalar_update_jac m a h s y c : a <> 0 -> h <> 0 -> s <> 0 -> y <> 0 -> c <> 0 ->
  forall j, jm_matrix j = Some [[Fin a]] -> jm_inverse j = Some [[Fin h]] ->
  approximate_jacobian j m [Fin s] [Fin y] [Fin c]
  = Ret (mkJacobianMatrix (Some [[Fin (y / s)]]) (Some [[Fin (1 / (y / s))]]) false true, true).
Proof.
  intros Na Nh Ns Ny Nc j EM EI.
  assert (Nq : y / s <> 0) by (apply mult_nz; [exact Ny|apply Rinv_neq_0_compat; exact Ns]).
  assert (INV : update_jacobian_with_approximated_value j [[Fin (y / s)]]
    = (mkJacobianMatrix (Some [[Fin (y / s)]]) (Some [[Fin (1 / (y / s))]]) false true, true)).
  { unfold update_jacobian_with_approximated_value, update_jacobian, try_inverse, Inverter_XR.
    change [[Fin (y / s)]] with (liftm [[y / s]]).
    rewrite lift_lu_inverse, lu_inverse_1.
    destruct (Reqb (y / s) 0) eqn:Z; [apply Reqb_true in Z; contradiction|reflexivity]. }
  unfold approximate_jacobian; rewrite EM, EI; cbn [unwrap bind].
  destruct m; cbn [guard_shape same_size length Nat.eqb andb bind].
  - rewrite scalar_first_jac by assumption; rewrite INV; reflexivity.
  - rewrite scalar_second_jac by assumption; rewrite INV; reflexivity.
  - rewrite scalar_c_jac by assumption; rewrite INV; reflexivity.
  - change (mat_vec_chk [[Fin h]] [Fin y]) with (@Ret (vec XR) [Fin (h * y)]); cbn [bind].
    cbn [guard_shape same_size length Nat.eqb andb bind].
    rewrite scalar_greenstadt_jac by (try assumption; apply mult_nz; assumption).
    rewrite INV; reflexivity.
Qed.

Lemma scalar_update_inv m h s y c : h <> 0 -> s <> 0 -> y <> 0 -> c <> 0 ->
  forall j, jm_inverse j = Some [[Fin h]] ->
  approximate_inv_jacobian j m [Fin s] [Fin y] [Fin c]
  = Ret (mkJacobianMatrix None (Some [[Fin (s / y)]]) (jm_compute_at_next j) true).
Proof.
  intros Nh Ns Ny Nc j EI; unfold approximate_inv_jacobian, update_inverse; rewrite EI; cbn [unwrap bind].
  destruct m; cbn [guard_shape same_size length Nat.eqb andb bind].
  - rewrite scalar_first_inv by assumption; reflexivity.
  - rewrite scalar_second_inv by assumption; reflexivity.
  - rewrite scalar_c_inv by assumption; reflexivity.
  - change (mat_vec_chk (mat_mul (transpose [[Fin h]]) [[Fin h]]) [Fin y])
      with (@Ret (vec XR) [Fin (h * h * y)]); cbn [bind].
    cbn [guard_shape same_size length Nat.eqb andb bind].
    rewrite scalar_c_inv by (try assumption; repeat apply mult_nz; assumption); reflexivity.
Qed.

(** The branch without jacobian computation, on numbers. *)
Lemma scalar_step qm (rf : rootfinder XR) s y c : updating qm ->
  scalar_jacobian qm (rf_jacobian rf) ->
  rf_iteratives_step rf = Some [Fin s] -> rf_residuals_step rf = Some [Fin y] ->
  rf_residuals_current rf = Some [Fin c] -> s <> 0 -> y <> 0 -> c <> 0 ->
  exists j, approximate_step rf qm = Ret (set_jacobian rf j, true) /\ scalar_jacobian qm j /\
    jm_inverse j = Some [[Fin (s / y)]].
Proof.
  intros UP (CJ & (h & EI & Nh) & MJ) E1 E2 E3 Ns Ny Nc.
  assert (Nq : y / s <> 0) by (apply mult_nz; [exact Ny|apply Rinv_neq_0_compat; exact Ns]).
  assert (Np : s / y <> 0) by (apply mult_nz; [exact Ns|apply Rinv_neq_0_compat; exact Ny]).
  destruct qm as [|m|m]; [exfalso; apply UP; reflexivity| |]; cbn [approximate_step];
    rewrite E1, E2, E3; cbn [unwrap bind].
  - destruct MJ as (a & EM & Na).
    rewrite (scalar_update_jac m a h s y c Na Nh Ns Ny Nc _ EM EI); cbn [bind].
    eexists; split; [reflexivity|].
    assert (EQ : 1 / (y / s) = s / y) by (field; split; assumption).
    split; [|cbn [jm_inverse]; rewrite EQ; reflexivity].
    split; [reflexivity|]; split; [exists (1 / (y / s)); rewrite EQ; auto|exists (y / s); auto].
  - rewrite (scalar_update_inv m h s y c Nh Ns Ny Nc _ EI); cbn [bind].
    eexists; split; [reflexivity|]; split; [|reflexivity].
    split; [exact CJ|]; split; [exists (s / y); auto|exact I].
Qed.

(** ** The secant method *)

(** The iterates: a first step of Newton's method, then the secant through the
    last two points. *)
Fixpoint secant_pair (f df : R -> R) (x0 : R) (k : nat) : R * R :=
  match k with
  | O => (x0, x0 - f x0 / df x0)
  | S k' => let '(p, a) := secant_pair f df x0 k' in
            (a, a - f a * (a - p) / (f a - f p))
  end.
Definition secant (f df : R -> R) (x0 : R) (k : nat) : R := fst (secant_pair f df x0 k).

Lemma secant_unfold f df x0 :
  secant f df x0 0 = x0 /\ secant f df x0 1 = x0 - f x0 / df x0 /\
  forall k, let p := secant f df x0 k in let a := secant f df x0 (S k) in
    secant f df x0 (S (S k)) = a - f a * (a - p) / (f a - f p).
Proof.
  split; [reflexivity|]; split; [reflexivity|]; intros k; unfold secant; cbn [secant_pair].
  destruct (secant_pair f df x0 k) as [p a]; reflexivity.
Qed.

Lemma snd_secant f df x0 k : snd (secant_pair f df x0 k) = secant f df x0 (S k).
Proof. unfold secant; cbn [secant_pair]; destruct (secant_pair f df x0 k); reflexivity. Qed.

Section Convex.
Context (f df : R -> R) (r : R) (C : convex_increasing f df r).

Lemma increasing_sign p a : a < p -> f a < f p.
Proof. apply (ci_increasing _ _ _ C). Qed.

(** A step from [a < p]. *)
Lemma secant_step p a : r <= a < p -> 0 < f a ->
  let w := a - f a * (a - p) / (f a - f p) in
  r <= w < a /\ f a / df p <= a - w.
Proof.
  intros Ha Fa w.
  assert (I := increasing_sign p a (proj2 Ha)).
  assert (P1 : 0 < f p - f a) by lra.
  assert (W : a - w = f a * (p - a) / (f p - f a)) by (unfold w; field; lra).
  assert (CV : f a * (p - r) <= (a - r) * f p).
  { assert (K := ci_convex _ _ _ C r p ((a - r) / (p - r))).
    assert (T : 0 <= (a - r) / (p - r) <= 1).
    { split; [apply Rmult_le_pos; [lra|apply Rlt_le, Rinv_0_lt_compat; lra]|].
      apply Rmult_le_reg_r with (p - r); [lra|].
      replace ((a - r) / (p - r) * (p - r)) with (a - r) by (field; lra); lra. }
    specialize (K T); rewrite (ci_root _ _ _ C) in K.
    replace ((a - r) / (p - r) * p + (1 - (a - r) / (p - r)) * r) with a in K by (field; lra).
    apply Rmult_le_compat_r with (r := p - r) in K; [|lra].
    replace (((a - r) / (p - r) * f p + (1 - (a - r) / (p - r)) * 0) * (p - r))
      with ((a - r) * f p) in K by (field; lra); exact K. }
  assert (S1 : f a * (p - a) / (f p - f a) <= a - r).
  { apply Rmult_le_reg_r with (f p - f a); [exact P1|].
    replace (f a * (p - a) / (f p - f a) * (f p - f a)) with (f a * (p - a)) by (field; lra); lra. }
  assert (S2 : 0 < f a * (p - a) / (f p - f a)).
  { apply Rdiv_lt_0_compat; [apply Rmult_lt_0_compat; lra|exact P1]. }
  split; [lra|]; rewrite W.
  assert (SP := slope_positive f df r C p).
  assert (T := above_tangent f df r C p a).
  apply Rmult_le_reg_r with (f p - f a); [exact P1|].
  replace (f a * (p - a) / (f p - f a) * (f p - f a)) with (f a * (p - a)) by (field; lra).
  apply Rmult_le_reg_r with (df p); [exact SP|].
  replace (f a / df p * (f p - f a) * df p) with (f a * (f p - f a)) by (field; lra).
  replace (f a * (p - a) * df p) with (f a * (df p * (p - a))) by lra.
  apply Rmult_le_compat_l; lra.
Qed.

Notation M := (model_from_function_and_jacobian (vector_of f) (matrix_of df)).
Notation pt := (at_point M 1 (adapter_good 1) (fun _ => True) (one_dim f) (fun _ => vzeros 1)).
Notation U := (residuals_of (one_dim f) (fun _ => vzeros 1)).
Notation E := (fun x => vabs (U x)).

Lemma WB1 : well_behaved M 1 (all_abs 1) (adapter_good 1) (fun _ => True) (one_dim f)
  (fun _ => vzeros 1) U E.
Proof.
  apply abs_well_behaved; apply (adapter_problem 1 (fun _ => True) (vector_of f) (one_dim f)).
  intros x _; apply one_dim_lift.
Qed.

Lemma err_1 a : r <= a -> amax (E [a]) = f a.
Proof.
  intros Ha; cbv beta; rewrite amax_vabs, residuals_1; cbn [amax fold_left].
  apply (abs_above f df r C a Ha).
Qed.

Lemma point_1 h a : newton_point U [[h]] [a] = [a - h * f a].
Proof.
  apply (vec_ext _ _ 1).
  - apply (newton_point_length 1); [split; [reflexivity|]; intros [|i] Hi; [reflexivity|lia]|reflexivity].
  - reflexivity.
  - intros [|i] Hi; [|lia].
    rewrite (newton_point_entry 1); [| |reflexivity|rewrite residuals_1; reflexivity|lia].
    + rewrite residuals_1; unfold ment, vent; cbn [rsum nth]; lra.
    + split; [reflexivity|]; intros [|i] Hj; [reflexivity|lia].
Qed.

Context (tol : R) (Ht : 0 < tol) (dmp : bool) (qm : quasi_newton_method) (UP : updating qm).

(** The rootfinder between two iterations, after a step from [p] to [a]. *)
Definition after (p a : R) (rf : rootfinder XR) : Prop :=
  plain 1 (all_abs 1) (QuasiNewton qm) rf /\ sp_tolerance (rf_parameters rf) = Fin tol /\
  rf_valid_last rf = true /\
  scalar_jacobian qm (rf_jacobian rf) /\ rf_iteratives_step rf = Some [Fin (a - p)] /\
  rf_residuals_step rf = Some [Fin (f a - f p)] /\ rf_residuals_current rf = Some [Fin (f a)].

Lemma stored_after rf j p a : plain 1 (all_abs 1) (QuasiNewton qm) rf ->
  sp_tolerance (rf_parameters rf) = Fin tol -> scalar_jacobian qm j -> r <= a -> r <= p ->
  after p a (next_rf E rf j [p] [a]).
Proof.
  intros PL HT SJ Ha Hp; split; [apply next_rf_plain; exact PL|].
  unfold next_rf.
  destruct (stored_fields E (set_jacobian (set_iter rf (S (rf_iter rf))) j) [p] [a])
    as (F1 & F2 & F3 & F4 & F5 & F6 & F7).
  rewrite F1, F2, F7; split; [exact HT|]; split; [reflexivity|]; split; [exact SJ|].
  unfold stored; cbn [set_jacobian set_iter rf_parameters].
  destruct PL as (_ & _ & _ & _ & ->).
  assert (EA : vabs (U [a]) = [f a]).
  { rewrite residuals_1; cbn [vabs map]; rewrite (abs_above f df r C a Ha); reflexivity. }
  assert (EP : vabs (U [p]) = [f p]).
  { rewrite residuals_1; cbn [vabs map]; rewrite (abs_above f df r C p Hp); reflexivity. }
  destruct qm as [|m|m]; [exfalso; apply UP; reflexivity| |];
    cbn [set_steps set_valid rf_iteratives_step rf_residuals_step rf_residuals_current];
    rewrite EA, EP; repeat split; reflexivity.
Qed.

(** An iteration after the first one. *)
Lemma secant_iteration rf s p a : after p a rf -> pt [a] s -> r <= a < p -> 0 < f a ->
  let w := a - f a * (a - p) / (f a - f p) in
  exists rf' s', iteration M rf s = Ret (rf', s', Ok (lift (E [w]))) /\ after a w rf' /\ pt [w] s' /\
    rf_iter rf' = S (rf_iter rf) /\ rf_parameters rf' = rf_parameters rf.
Proof.
  intros (PL & HT & HV & SJ & E1 & E2 & E3) HA Ha Fa w.
  destruct (secant_step p a Ha Fa) as [[W1 W2] _]; fold w in W1, W2.
  assert (I := increasing_sign p a (proj2 Ha)).
  destruct (scalar_step qm (set_iter rf (S (rf_iter rf))) (a - p) (f a - f p) (f a) UP SJ E1 E2 E3
    ltac:(lra) ltac:(lra) ltac:(lra)) as (j & EA & SJ' & EI).
  assert (PW : newton_point U [[(a - p) / (f a - f p)]] [a] = [w]).
  { rewrite point_1; f_equal; unfold w; field; lra. }
  destruct (iteration_approx M 1 (all_abs 1) (adapter_good 1) (fun _ => True) (one_dim f)
    (fun _ => vzeros 1) U E WB1 qm rf [a] s j [[(a - p) / (f a - f p)]] PL) as (s' & P' & EQ); auto.
  - apply SJ.
  - split; [reflexivity|]; intros [|i] Hi; [reflexivity|lia].
  - right; rewrite PW, !err_1 by lra; left; apply increasing_sign; exact W2.
  - rewrite PW in EQ, P'; rewrite EQ.
    exists (next_rf E rf j [a] [w]), s'; split.
    + reflexivity.
    + split; [apply stored_after; auto; lra|]; split; [exact P'|].
      unfold next_rf.
      destruct (stored_fields E (set_jacobian (set_iter rf (S (rf_iter rf))) j) [a] [w])
        as (F1 & F2 & F3 & F4 & F5 & F6 & F7).
      rewrite F6, F2; split; reflexivity.
Qed.

Notation u := (secant f df).

Lemma secant_next x0 k : r <= u x0 (S k) < u x0 k -> 0 < f (u x0 (S k)) ->
  r <= u x0 (S (S k)) < u x0 (S k) /\
  f (u x0 (S k)) / df (u x0 k) <= u x0 (S k) - u x0 (S (S k)).
Proof.
  intros H1 H2; destruct (secant_unfold f df x0) as (_ & _ & ->); apply secant_step; assumption.
Qed.

Lemma tol_test a : r <= a -> xltb (Fin tol) (Fin (amax (E [a]))) = Rltb tol (f a).
Proof. intros Ha; cbv beta; rewrite err_1 by exact Ha; reflexivity. Qed.

Lemma secant_iterate x0 : forall left fuel rf s k, (left < fuel)%nat ->
  after (u x0 k) (u x0 (S k)) rf -> pt [u x0 (S k)] s -> r <= u x0 (S k) < u x0 k ->
  rf_iter rf = S k -> (rf_iter rf + left = sp_max_iter (rf_parameters rf))%nat ->
  exists m rf' s', rf_parameters rf' = rf_parameters rf /\ rf_valid_last rf' = true /\
    iterate M fuel rf s (Fin (amax (E [u x0 (S k)]))) = Ret (rf', s', Ok (Fin (amax (E [u x0 m])))) /\
    pt [u x0 m] s' /\ rf_iter rf' = m /\ (S k <= m <= S k + left)%nat /\
    (forall i, (k <= i < m)%nat -> r <= u x0 (S i) < u x0 i) /\
    (forall i, (k < i < m)%nat -> tol < f (u x0 i)) /\
    (f (u x0 m) <= tol \/ m = (S k + left)%nat).
Proof.
  induction left as [|left IH]; intros fuel rf s k LF AF HA HU HI HN;
    (destruct fuel as [|fuel]; [lia|]); cbn [iterate].
  - replace (Nat.ltb (rf_iter rf) (sp_max_iter (rf_parameters rf))) with false
      by (symmetry; apply Nat.ltb_ge; lia).
    rewrite andb_false_r; exists (S k), rf, s; split; [reflexivity|]; split; [apply AF|].
    split; [reflexivity|]; split; [exact HA|]; split; [exact HI|]; split; [lia|].
    split; [intros i Hi; replace i with k by lia; exact HU|]; split; [lia|right; lia].
  - replace (Nat.ltb (rf_iter rf) (sp_max_iter (rf_parameters rf))) with true
      by (symmetry; apply Nat.ltb_lt; lia).
    rewrite andb_true_r; unfold ngtb; rewrite (proj1 (proj2 AF)); cbn [nltb Num_XR].
    cbv beta; rewrite tol_test by apply HU; destruct (Rltb tol (f (u x0 (S k)))) eqn:T.
    + apply Rltb_true in T.
      destruct (secant_iteration rf s (u x0 k) (u x0 (S k)) AF HA HU ltac:(lra))
        as (rf1 & s1 & E1 & AF1 & A1 & I1 & P1).
      destruct (secant_next x0 k HU ltac:(lra)) as [N1 _].
      cbv zeta in *.
      destruct (secant_unfold f df x0) as (_ & _ & EU); specialize (EU k); cbv zeta in EU.
      rewrite <- EU in E1, AF1, A1; rewrite E1; cbn [bind]; rewrite lift_amax.
      destruct (IH fuel rf1 s1 (S k) ltac:(lia) AF1 A1 N1 ltac:(lia) ltac:(rewrite I1, P1; lia))
        as (m & rf' & s' & K1 & K2 & K3 & K4 & K5 & K6 & K7 & K8 & K9).
      exists m, rf', s'; split; [congruence|]; split; [exact K2|]; split; [exact K3|].
      split; [exact K4|]; split; [exact K5|]; split; [lia|]; split; [|split].
      * intros i Hi; destruct (Nat.eq_dec i k) as [->|]; [exact HU|apply K7; lia].
      * intros i Hi; destruct (Nat.eq_dec i (S k)) as [->|]; [exact T|apply K8; lia].
      * destruct K9 as [K9|K9]; [left; exact K9|right; lia].
    + apply Rltb_false in T; exists (S k), rf, s; split; [reflexivity|]; split; [apply AF|].
      split; [reflexivity|]; split; [exact HA|]; split; [exact HI|]; split; [lia|].
      split; [intros i Hi; replace i with k by lia; exact HU|]; split; [lia|left; lra].
Qed.

Lemma secant_solve x0 maxit rf : r <= x0 ->
  rootfinder_new (mkSolverParameters 1 (Fin tol) maxit (QuasiNewton qm) dmp) [Fin x0]
    (jac_iteratives 1) (all_abs 1) = Ret rf ->
  exists m rf' s',
    solve M rf (user_model_new 1)
    = Ret (rf', s', if Rltb tol (f (u x0 m)) then Err NonConvergenceError else Ok tt) /\
    um_inputs s' = [Fin (u x0 m)] /\ rf_iter rf' = m /\ (m <= maxit)%nat /\ r <= u x0 m /\
    (forall i, (i < m)%nat -> r <= u x0 (S i) < u x0 i) /\
    (forall i, (i < m)%nat -> tol < f (u x0 i)) /\
    (f (u x0 m) <= tol \/ m = maxit).
Proof.
  intros Hx HN; apply new_fields in HN.
  assert (PL : plain 1 (all_abs 1) (QuasiNewton qm) rf).
  { subst rf; repeat split; apply default_jac_unlimited. }
  assert (HT : sp_tolerance (rf_parameters rf) = Fin tol) by (subst rf; reflexivity).
  assert (HV : rf_valid_last rf = true) by (subst rf; reflexivity).
  assert (H0 : rf_iter rf = O) by (subst rf; reflexivity).
  assert (HG : rf_initial_guess rf = lift [x0]) by (subst rf; reflexivity).
  assert (HM : sp_max_iter (rf_parameters rf) = maxit) by (subst rf; reflexivity).
  assert (CJ : jm_compute_at_next (rf_jacobian rf) = true) by (subst rf; reflexivity).
  clear HN.
  assert (U0 : u x0 0 = x0) by reflexivity.
  destruct (wb_eval _ _ _ _ _ _ _ _ _ WB1 (user_model_new 1) [x0] (fresh_good 1) I eq_refl) as (s1 & E1 & P1).
  assert (PL' := PL); destruct PL' as (A1 & A2 & A3 & A4 & A6).
  unfold solve; rewrite HG, E1; cbn [bind]; unfold solve_from.
  rewrite (errors_at M 1 (all_abs 1) (adapter_good 1) (fun _ => True) (one_dim f) (fun _ => vzeros 1) U E
    WB1 rf [x0] s1 A2 P1); cbn [bind].
  unfold when_debug; rewrite A1; cbn [bind]; rewrite lift_amax.
  rewrite HM; remember maxit as fuel eqn:EM; cbn [iterate]; rewrite HM; destruct fuel as [|left].
  - rewrite H0; rewrite andb_false_r; cbn [bind].
    exists O, rf, s1; unfold verdict, ngtb; rewrite HT, HV; cbn [nltb Num_XR].
    cbv beta; rewrite tol_test, U0 by exact Hx; split; [reflexivity|]; split; [apply P1|].
    split; [exact H0|]; split; [lia|]; split; [exact Hx|]; split; [lia|]; split; [lia|right; reflexivity].
  - rewrite H0; cbn [Nat.ltb Nat.leb]; rewrite andb_true_r; unfold ngtb; rewrite HT; cbn [nltb Num_XR].
    cbv beta; rewrite tol_test by exact Hx; destruct (Rltb tol (f x0)) eqn:T.
    + apply Rltb_true in T.
      assert (SP := slope_positive f df r C x0).
      destruct (step_stays f df r C x0 Hx) as [W1 W2].
      assert (W3 : u x0 1 < u x0 0).
      { unfold secant; cbn [secant_pair fst]. assert (0 < f x0 / df x0) by (apply Rdiv_lt_0_compat; lra); lra. }
      assert (PW : newton_point U [[1 / df x0]] [x0] = [u x0 1]).
      { rewrite point_1; f_equal; unfold secant; cbn [secant_pair fst]; field; lra. }
      assert (W1' : r <= u x0 1) by exact W1.
      destruct (iteration_computed M 1 (all_abs 1) (adapter_good 1) (fun _ => True) (one_dim f)
        (fun _ => vzeros 1) U E WB1 (QuasiNewton qm) rf [x0] s1 [[df x0]] [x0] [[1 / df x0]] PL)
        as (s2 & P2 & EI2); auto.
      * right; exact CJ.
      * left; exists (one_dim_jac df); split; [apply analytic_1|split; reflexivity].
      * rewrite lu_inverse_1; destruct (Reqb (df x0) 0) eqn:Z; [apply Reqb_true in Z; lra|reflexivity].
      * right; rewrite PW, !err_1 by lra; left; apply increasing_sign; rewrite <- U0 at 2; exact W3.
      * rewrite PW in EI2, P2; rewrite EI2; cbn [bind]; rewrite lift_amax.
        set (j := exact_jacobian [[df x0]] [[1 / df x0]]) in *.
        assert (SJ : scalar_jacobian qm j).
        { split; [reflexivity|]; split.
          - exists (1 / df x0); split; [reflexivity|].
            apply mult_nz; [lra|apply Rinv_neq_0_compat; lra].
          - destruct qm; auto; exists (df x0); split; [reflexivity|lra]. }
        assert (AF := stored_after rf j x0 (u x0 1) PL HT SJ W1' Hx).
        set (rf1 := next_rf E rf j [x0] [u x0 1]) in *.
        destruct (stored_fields E (set_jacobian (set_iter rf (S (rf_iter rf))) j) [x0] [u x0 1])
          as (F1 & F2 & F3 & F4 & F5 & F6 & F7).
        change (stored E _ _ _) with rf1 in F1, F2, F3, F4, F5, F6, F7.
        cbn in F2, F6.
        destruct (secant_iterate x0 left (S left) rf1 s2 0 ltac:(lia) AF P2 (conj W1' W3)
          ltac:(rewrite F6, H0; reflexivity) ltac:(rewrite F6, F2, H0, HM; lia))
          as (m & rf' & s' & K1 & K2 & K3 & K4 & K5 & K6 & K7 & K8 & K9).
        exists m, rf', s'; rewrite K3; cbn [bind].
        assert (Rm : r <= u x0 m).
        { destruct m as [|m]; [lia|]; apply (K7 m); lia. }
        split.
        { unfold verdict, ngtb; rewrite K1, F2, HT, K2; cbn [nltb Num_XR].
          cbv beta; rewrite tol_test by exact Rm; reflexivity. }
        split; [apply K4|]; split; [exact K5|]; split; [lia|]; split; [exact Rm|].
        split; [intros i Hi; apply K7; lia|]; split.
        { intros [|i] Hi; [rewrite U0; exact T|apply K8; lia]. }
        { destruct K9 as [K9|K9]; [left; exact K9|right; lia]. }
    + apply Rltb_false in T; cbn [bind].
      exists O, rf, s1; unfold verdict, ngtb; rewrite HT, HV; cbn [nltb Num_XR].
      cbv beta; rewrite tol_test, U0 by exact Hx; split; [reflexivity|]; split; [apply P1|].
      split; [exact H0|]; split; [lia|]; split; [exact Hx|]; split; [lia|]; split; [lia|left; exact T].
Qed.
End Convex.

(** Progress of the iterates. *)
Lemma secant_progress f df r tol x0 m : convex_increasing f df r -> 0 < tol -> r <= x0 ->
  (forall i, (i < m)%nat -> r <= secant f df x0 (S i) < secant f df x0 i) ->
  (forall i, (i < m)%nat -> tol < f (secant f df x0 i)) ->
  secant f df x0 m <= x0 - INR m * (tol / df x0).
Proof.
  intros C Ht Hx MON BIG.
  assert (SP0 := slope_positive f df r C x0).
  assert (UP : forall i, (i <= m)%nat -> secant f df x0 i <= x0).
  { induction i as [|i IH]; intros Hi; [apply Rle_refl|].
    specialize (IH ltac:(lia)); specialize (MON i ltac:(lia)); lra. }
  assert (ST : forall i, (i < m)%nat -> tol / df x0 <= secant f df x0 i - secant f df x0 (S i)).
  { intros [|i] Hi.
    - specialize (BIG O Hi); unfold secant in BIG |- *; cbn [secant_pair fst] in BIG |- *.
      assert (tol / df x0 <= f x0 / df x0); [|lra].
      apply Rmult_le_compat_r; [left; apply Rinv_0_lt_compat, SP0|lra].
    - assert (B := BIG (S i) Hi).
      destruct (secant_next f df r C x0 i (MON i ltac:(lia)) ltac:(lra)) as [_ P].
      eapply Rle_trans; [|exact P].
      assert (SP := slope_positive f df r C (secant f df x0 i)).
      assert (SI := slope_increasing f df r C (secant f df x0 i) x0 (UP i ltac:(lia))).
      apply Rle_trans with (tol / df (secant f df x0 i)).
      + apply Rmult_le_compat_l; [lra|apply Rinv_le_contravar; lra].
      + apply Rmult_le_compat_r; [left; apply Rinv_0_lt_compat, SP|lra]. }
  clear MON BIG UP; induction m as [|m IH].
  - cbn [INR]; unfold secant; cbn [secant_pair fst]; lra.
  - rewrite S_INR; assert (A := IH ltac:(intros i Hi; apply ST; lia)).
    specialize (ST m ltac:(lia)); lra.
Qed.

(** ** C70 *)

(** Every update (Broyden or Greenstadt, first or second, of the jacobian or of
    its inverse) visits the iterates of the secant method, with and without
    damping. They decrease strictly and stay above the root.
    The solve stops at the first iterate within the tolerance, or when the budget
    is used up. *)
Theorem C70_secant_method : forall f df r x0 tol maxit damping qm rf,
  convex_increasing f df r -> r <= x0 -> 0 < tol -> qm <> StationaryNewton ->
  rootfinder_new (mkSolverParameters 1 (Fin tol) maxit (QuasiNewton qm) damping) [Fin x0]
    (jac_iteratives 1) (all_abs 1) = Ret rf ->
  exists u : nat -> R,
    u O = x0 /\ u 1%nat = x0 - f x0 / df x0 /\
    (forall k, u (S (S k)) = u (S k) - f (u (S k)) * (u (S k) - u k) / (f (u (S k)) - f (u k))) /\
  exists m rf' s',
    solve (model_from_function_and_jacobian (vector_of f) (matrix_of df)) rf (user_model_new 1)
    = Ret (rf', s', if Rltb tol (f (u m)) then Err NonConvergenceError else Ok tt) /\
    um_inputs s' = [Fin (u m)] /\ rf_iter rf' = m /\ (m <= maxit)%nat /\ r <= u m /\
    (forall i, (i < m)%nat -> r <= u (S i) < u i) /\
    (forall i, (i < m)%nat -> tol < f (u i)) /\
    (f (u m) <= tol \/ m = maxit).
Proof.
  intros f df r x0 tol maxit damping qm rf C Hx Ht UP HN.
  destruct (secant_unfold f df x0) as (U0 & U1 & U2).
  exists (secant f df x0); split; [exact U0|]; split; [exact U1|]; split; [exact U2|].
  exact (secant_solve f df r C tol Ht damping qm UP x0 maxit rf Hx HN).
Qed.
Print Assumptions C70_secant_method.

(** The budget that is enough for Newton's method (C55) is enough for every
    update. *)
Theorem C70_converges : forall f df r x0 tol maxit damping qm rf,
  convex_increasing f df r -> r <= x0 -> 0 < tol -> qm <> StationaryNewton ->
  (x0 - r) * df x0 <= INR maxit * tol ->
  rootfinder_new (mkSolverParameters 1 (Fin tol) maxit (QuasiNewton qm) damping) [Fin x0]
    (jac_iteratives 1) (all_abs 1) = Ret rf ->
  exists rf' s' y,
    solve (model_from_function_and_jacobian (vector_of f) (matrix_of df)) rf (user_model_new 1)
    = Ret (rf', s', Ok tt) /\
    um_inputs s' = [Fin y] /\ r <= y <= x0 /\ 0 <= f y <= tol /\ (rf_iter rf' <= maxit)%nat.
Proof.
  intros f df r x0 tol maxit damping qm rf C Hx Ht UP HM HN.
  destruct (secant_solve f df r C tol Ht damping qm UP x0 maxit rf Hx HN)
    as (m & rf' & s' & E & I & N & LM & Rm & MON & BIG & END).
  assert (SP := slope_positive f df r C x0).
  assert (PR := secant_progress f df r tol x0 m C Ht Hx MON BIG).
  assert (T0 : 0 < tol / df x0) by (apply Rdiv_lt_0_compat; lra).
  assert (Fm : f (secant f df x0 m) <= tol).
  { destruct END as [|EQ]; [assumption|]; rewrite EQ in PR, Rm |- *.
    assert (B : (x0 - r) <= INR maxit * (tol / df x0)).
    { apply Rmult_le_reg_r with (df x0); [exact SP|].
      replace (INR maxit * (tol / df x0) * df x0) with (INR maxit * tol) by (field; lra); exact HM. }
    replace (secant f df x0 maxit) with r by lra; rewrite (ci_root _ _ _ C); lra. }
  assert (A := above_root f df r C _ Rm).
  assert (0 <= INR m * (tol / df x0)) by (apply Rmult_le_pos; [apply pos_INR|lra]).
  exists rf', s', (secant f df x0 m); rewrite N.
  destruct (Rltb tol (f (secant f df x0 m))) eqn:T; [apply Rltb_true in T; lra|].
  repeat split; auto; lra.
Qed.
Print Assumptions C70_converges.

(** exp x - 1 from 1, every update, with and without damping. *)
Example C70_case : forall qm damping, qm <> StationaryNewton -> exists rf rf' s' y,
  rootfinder_new (mkSolverParameters 1 (Fin (1 / 10)) 30 (QuasiNewton qm) damping) [Fin 1]
    (jac_iteratives 1) (all_abs 1) = Ret rf /\
  solve (model_from_function_and_jacobian (vector_of (fun x => exp x - 1)) (matrix_of exp)) rf
    (user_model_new 1) = Ret (rf', s', Ok tt) /\
  um_inputs s' = [Fin y] /\ 0 <= y <= 1 /\ exp y - 1 <= 1 / 10.
Proof.
  intros qm damping UP; eexists;
  edestruct (C70_converges (fun x => exp x - 1) exp 0 1 (1 / 10) 30 damping qm) as (rf' & s' & y & H).
  - exact exp_convex_increasing.
  - lra.
  - lra.
  - exact UP.
  - assert (E := exp_le_3); cbn [INR]; lra.
  - reflexivity.
  - exists rf', s', y; split; [reflexivity|]; decompose [and] H; repeat split; auto; lra.
Qed.
Example C70_case_exists : JacobianUpdate BroydenFirstMethod <> StationaryNewton /\
  InverseJacobianUpdate GreenstadtSecondMethod <> StationaryNewton.
Proof. split; discriminate. Qed.
