(** Exact arithmetic: C27 (the Newton step), C29 (finite differences on affine
    problems) and C30 (affine systems are solved in one iteration). *)
From Coq Require Import Reals Lra.
From Verif Require Import Base Num Linalg Residuals Iteratives UserModel Jacobian Solver
  F64 Samples RNum LuFacts XR PropsQuasi PropsFD ExactFacts.
Open Scope R_scope.

(** ** Problems with absolute residuals *)
Section Problems.
Context {St EI EU : Type} (M : Model XR St EI EU) (n : nat)
  (Good : St -> Prop) (D : vec R -> Prop) (L Rg : vec R -> vec R).

(** The user problem has [n] equations [L(x) = Rg(x)]; it can be evaluated at
    the points of [D]; giving a memory does not change the values read. *)
Record finite_problem : Prop := {
  fp_len : forall s, Good s -> len_problem M s = n;
  fp_eval : forall s x, Good s -> D x -> length x = n ->
    exists s1, evaluate M (set_iteratives M s (lift x)) = Ret (s1, Ok tt) /\
      at_point M n Good D L Rg x s1;
  fp_mem : forall s x m, at_point M n Good D L Rg x s ->
    at_point M n Good D L Rg x (set_memory M s m);
  fp_left : forall x, D x -> length x = n -> length (L x) = n;
  fp_right : forall x, D x -> length x = n -> length (Rg x) = n
}.

Definition residuals_of (x : vec R) : vec R := vsub_raw (L x) (Rg x).

Lemma abs_well_behaved : finite_problem ->
  well_behaved M n (all_abs n) Good D L Rg residuals_of (fun x => vabs (residuals_of x)).
Proof.
  intros FP; constructor.
  - apply (fp_len FP).
  - apply (fp_eval FP).
  - apply (fp_mem FP).
  - intros x Dx Lx; split; [apply (len_sub n); [apply (fp_left FP)|apply (fp_right FP)]; assumption|].
    apply abs_update; [apply (fp_left FP)|apply (fp_right FP)]; assumption.
  - intros x Dx Lx; split.
    + unfold vabs; rewrite map_length.
      apply (len_sub n); [apply (fp_left FP)|apply (fp_right FP)]; assumption.
    + apply abs_stopping; [apply (fp_left FP)|apply (fp_right FP)]; assumption.
Qed.

(** The problem is [A x = b]. *)
Definition affine (A : mat R) (b : vec R) : Prop :=
  forall x i, length x = n -> (i < n)%nat ->
  vent (L x) i - vent (Rg x) i = app n A x i - vent b i.

End Problems.

(** The four adapters of the crate. *)
Definition adapter_good (n : nat) (s : user_model XR) : Prop :=
  um_problem_size s = n /\ um_right s = vzeros n.

Lemma fresh_good n : adapter_good n (user_model_new n).
Proof. split; reflexivity. Qed.

Lemma is_mat_zeros n : is_mat n (mzeros n : mat R).
Proof.
  split; [apply repeat_length|]; intros i Hi; unfold mzeros.
  rewrite (nth_indep _ [] (vzeros n)) by (rewrite repeat_length; exact Hi).
  rewrite nth_repeat; apply repeat_length.
Qed.
Lemma mat_sub_zeros n (A : mat R) : is_mat n A -> mat_sub A (mzeros n) = A.
Proof.
  intros MA; apply (mat_ext _ _ n); [apply is_mat_sub; auto using is_mat_zeros|exact MA|].
  intros i j Hi Hj; rewrite (ent_msub n) by (auto using is_mat_zeros).
  replace (ment (mzeros n) i j) with 0; [lra|].
  unfold ment, mzeros; rewrite (nth_indep _ [] (vzeros n)) by (rewrite repeat_length; exact Hi).
  rewrite nth_repeat; unfold vzeros; symmetry; exact (nth_repeat 0 n j).
Qed.

Section Adapters.
Context (n : nat) (D : vec R -> Prop) (func : vec XR -> vec XR) (f : vec R -> vec R)
  (Hf : forall x, D x -> length x = n -> func (lift x) = lift (f x) /\ length (f x) = n).

Lemma adapter_eval s x : adapter_good n s -> D x -> length x = n ->
  exists s1, um_evaluate func (um_set_iteratives s (lift x)) = Ret (s1, Ok tt) /\
    adapter_good n s1 /\ um_inputs s1 = lift x /\
    um_get_residuals s1 = Ret (mkResidualsValues (lift (f x)) (lift (vzeros n))).
Proof.
  intros [G1 G2] Dx Lx; destruct (Hf x Dx Lx) as [E1 E2].
  eexists; split; [reflexivity|]; cbn [um_inputs um_set_iteratives]; split.
  - split; [exact G1|exact G2].
  - split; [reflexivity|].
    unfold um_get_residuals, residuals_values_new; cbn [um_left um_right um_set_iteratives].
    rewrite G2, E1, lift_vzeros, !lift_length, E2.
    unfold vzeros; rewrite repeat_length, Nat.eqb_refl; reflexivity.
Qed.

Lemma adapter_problem jac_provided get_jac :
  finite_problem
    (mkModel um_problem_size um_set_iteratives um_inputs (um_evaluate func)
      um_get_residuals jac_provided get_jac default_get_memory default_set_memory
      show_infallible show_infallible)
    n (adapter_good n) D f (fun _ => vzeros n).
Proof.
  constructor.
  - intros s [G _]; exact G.
  - intros s x G Dx Lx; destruct (adapter_eval s x G Dx Lx) as (s1 & E1 & G1 & I1 & R1).
    exists s1; repeat split; try assumption; apply G1.
  - intros s x m P; exact P.
  - intros x Dx Lx; apply (Hf x Dx Lx).
  - intros; apply repeat_length.
Qed.

Lemma adapter_analytic jac J :
  (forall x, D x -> length x = n -> jac (lift x) = liftm (J x) /\ is_mat n (J x)) ->
  analytic (model_from_function_and_jacobian func jac) n (all_abs n) (adapter_good n) D
    f (fun _ => vzeros n) J.
Proof.
  intros HJ s x P; assert (P' := P); destruct P' as (G & Dx & Lx & HI & HR).
  destruct (HJ x Dx Lx) as [E1 M1].
  pose proof (is_mat_zeros n) as MZ.
  split; [exact M1|]; split; [reflexivity|].
  exists s, (mkJacobianValues (liftm (J x)) (liftm (mzeros n))); split; [|split; [exact P|]].
  - cbn [get_jacobian model_from_function_and_jacobian]; unfold um_get_jacobian.
    cbn [get_iteratives model_from_function_and_jacobian] in HI.
    rewrite HI, E1; destruct G as [-> _]; rewrite lift_mzeros.
    unfold jacobian_values_new.
    assert (SQ : forall B, is_mat n B -> is_square n (liftm B) = true).
    { intros B [B1 B2]; unfold is_square; rewrite liftm_length, B1, Nat.eqb_refl; cbn [andb].
      apply forallb_forall; intros r Hr; apply Nat.eqb_eq.
      unfold liftm in Hr; apply in_map_iff in Hr; destruct Hr as (r0 & <- & Hr).
      rewrite lift_length; apply In_nth with (d := []) in Hr; destruct Hr as (i & Hi & <-).
      apply B2; rewrite <- B1; exact Hi. }
    rewrite liftm_length, (proj1 M1), (SQ (J x) M1), (SQ (mzeros n) MZ); reflexivity.
  - rewrite <- (mat_sub_zeros n (J x) M1) at 2; apply abs_normalize; auto.
    + apply (Hf x Dx Lx).
    + apply repeat_length.
Qed.
End Adapters.

(** ** C27 *)
Section Step.
Context {St EI EU : Type} (M : Model XR St EI EU) (n : nat) (conf : residuals_config)
  (Good : St -> Prop) (D : vec R -> Prop) (L Rg U E : vec R -> vec R)
  (WB : well_behaved M n conf Good D L Rg U E).

(** [w = x - H r(x)], [r] the update residuals. *)
Definition newton_formula (H : mat R) (x w : vec R) : Prop :=
  length w = n /\ forall i, (i < n)%nat -> vent w i = vent x i - app n H (U x) i.

Lemma newton_point_formula H x : is_mat n H -> length x = n -> length (U x) = n ->
  newton_formula H x (newton_point U H x).
Proof.
  intros MH Lx LU; split; [apply (newton_point_length n); assumption|].
  intros i Hi; apply (newton_point_entry n); assumption.
Qed.

(** Steps which compute the jacobian, analytical ([J = J(x)]) or by finite
    differences: there the problem is left at the last perturbed point, the step
    is computed from that point, and still the proposed point is
    [x - J^-1 r(x)]. *)
Theorem C27_computed_jacobian : forall rf x s rf' s' next,
  rf_debug rf = false -> rf_residuals_config rf = conf ->
  Forall unlimited (rf_iters_params rf) -> length (rf_iters_params rf) = n ->
  computes_jacobian rf -> at_point M n Good D L Rg x s ->
  compute_step M rf s = Ret (rf', s', Ok next) ->
  (forall JA, analytic M n conf Good D L Rg JA ->
     exists H w, inverse_of n (JA x) H /\ newton_formula H x w /\ next = lift w) /\
  (forall d, jacobian_provided M s = false -> perturbed_by n D (rf_iters_params rf) x d ->
     exists J H w, square n J /\
       (forall i j, (i < n)%nat -> (j < n)%nat ->
          ment J i j = (vent (U (shift x j (vent d j))) i - vent (U x) i) / vent d j) /\
       inverse_of n J H /\ newton_formula H x w /\ next = lift w).
Proof.
  intros rf x s rf' s' next ND HC HU LI CJ HP ES.
  assert (HP' := HP); destruct HP' as (Gs & Dx & Lx & _).
  destruct (wb_update _ _ _ _ _ _ _ _ _ WB x Dx Lx) as [LU _].
  assert (K : forall J z, jacobian_source M n conf Good D L Rg U rf x s J z ->
    exists H w, is_mat n J /\ inverse_of n J H /\ newton_formula H x w /\ next = lift w).
  { intros J z JS.
    destruct (step_at M n conf Good D L Rg U E WB rf x s J z ND HC HU LI CJ HP JS)
      as (s1 & _ & EQ).
    destruct (lu_inverse J) as [H|].
    - destruct EQ as (MJ & MH & I1 & I2 & EQ); rewrite EQ in ES; injection ES as _ _ <-.
      exists H, (newton_point U H x); split; [exact MJ|]; split; [apply mul_inverse_of; assumption|].
      split; [apply newton_point_formula; assumption|reflexivity].
    - destruct EQ as [j EQ]; rewrite EQ in ES; discriminate. }
  split.
  - intros JA HA; destruct (K (JA x) x) as (H & w & _ & K1 & K2 & K3).
    { left; exists JA; auto. }
    exists H, w; auto.
  - intros d JP PB; destruct (K (fd_matrix n U x d) (fd_last n x d)) as (H & w & K0 & K1 & K2 & K3).
    { right; exists d; auto. }
    exists (fd_matrix n U x d), H, w; split; [exact K0|]; split; [|auto].
    intros i j Hi Hj; destruct PB as (_ & _ & _ & DP).
    apply (fd_matrix_entry M n conf Good D L Rg U E WB); assumption.
Qed.

(** Steps with an approximated jacobian. *)
Theorem C27_approximated_jacobian : forall rf x s rf' s' next H,
  rf_residuals_config rf = conf ->
  Forall unlimited (rf_iters_params rf) -> length (rf_iters_params rf) = n ->
  ~ computes_jacobian rf -> at_point M n Good D L Rg x s ->
  compute_step M rf s = Ret (rf', s', Ok next) ->
  jm_inverse (rf_jacobian rf') = Some (liftm H) -> square n H ->
  s' = s /\ exists w, newton_formula H x w /\ next = lift w.
Proof.
  intros rf x s rf' s' next H HC HU LI NCJ HP ES EH MH.
  assert (HP' := HP); destruct HP' as (Gs & Dx & Lx & _).
  destruct (wb_update _ _ _ _ _ _ _ _ _ WB x Dx Lx) as [LU _].
  destruct (FlowFacts.compute_step_inv M _ _ _ _ _ ES) as (SJ & _).
  assert (B : s' = s /\ compute_next_from_inv_jac M rf' s' = Ret next).
  { unfold compute_step in ES; unfold computes_jacobian in NCJ.
    destruct (sp_resolution_method (rf_parameters rf)) as [|qm]; [exfalso; apply NCJ; auto|].
    unfold compute_quasi_newton_step, evaluate_jacobian_quasi_newton_step in ES.
    destruct (jm_compute_at_next (rf_jacobian rf)); [exfalso; apply NCJ; auto|].
    destruct (approximate_step rf qm) as [[rf1 ok]|q]; [|discriminate]; cbn [bind] in ES.
    destruct ok; [|discriminate].
    destruct (when_debug rf1 _) as [rf2|q]; [|discriminate]; cbn [bind] in ES.
    destruct (compute_next_from_inv_jac M rf2 s) as [nx|q] eqn:EN; [|discriminate].
    cbn [bind] in ES; injection ES as <- <- <-; auto. }
  destruct B as [-> EN]; split; [reflexivity|].
  destruct (FlowFacts.same_but_jac_fields _ _ SJ) as ((_ & _ & F2 & F3 & _) & _).
  rewrite (next_at M n conf Good D L Rg U E WB rf' x s H) in EN; auto; try congruence.
  - injection EN as <-; exists (newton_point U H x); split; [|reflexivity].
    apply newton_point_formula; assumption.
Qed.
End Step.
Print Assumptions C27_computed_jacobian.
Print Assumptions C27_approximated_jacobian.

(** ** C29 *)
Section Affine.
Context {St EI EU : Type} (M : Model XR St EI EU) (n : nat)
  (Good : St -> Prop) (L Rg : vec R -> vec R) (A : mat R) (b : vec R)
  (FP : finite_problem M n Good (fun _ => True) L Rg)
  (AF : affine n L Rg A b) (MA : square n A).

Let U := residuals_of L Rg.
Let WB := abs_well_behaved M n Good (fun _ => True) L Rg FP.

Lemma affine_residual x i : length x = n -> (i < n)%nat ->
  vent (U x) i = app n A x i - vent b i.
Proof.
  intros Lx Hi; unfold U, residuals_of.
  rewrite (ent_sub n); [apply AF; assumption|apply (fp_left _ _ _ _ _ _ FP)|
    apply (fp_right _ _ _ _ _ _ FP)|]; auto.
Qed.

Lemma app_shift x j d i : length x = n -> (i < n)%nat -> (j < n)%nat ->
  app n A (shift x j d) i = app n A x i + ment A i j * d.
Proof.
  intros Lx Hi Hj; unfold app.
  rewrite (rsum_ext n _ (fun k => ment A i k * vent x k +
             (if Nat.eqb k j then 1 else 0) * (ment A i k * d))).
  - rewrite rsum_plus; f_equal; exact (rsum_delta n j (fun k => ment A i k * d) Hj).
  - intros k Hk; rewrite shift_vent by lia; destruct (Nat.eqb k j); lra.
Qed.

Lemma fd_matrix_affine x d : length x = n -> (forall j, (j < n)%nat -> vent d j <> 0) ->
  fd_matrix n U x d = A.
Proof.
  intros Lx Nz; apply (mat_ext _ _ n); [apply fd_matrix_is_mat|exact MA|].
  intros i j Hi Hj.
  rewrite (fd_matrix_entry _ _ _ _ _ _ _ _ _ WB) by (auto; intros ? ?; exact I).
  fold U; rewrite !affine_residual by (try rewrite shift_length; assumption).
  rewrite app_shift by assumption; field; apply Nz, Hj.
Qed.

Theorem C29_affine : forall x d s,
  at_point M n Good (fun _ => True) L Rg x s ->
  length d = n -> (forall j, (j < n)%nat -> vent d j <> 0) ->
  exists s', compute_jacobian_from_finite_difference M s (lift d) (all_abs n)
    = Ret (s', Ok (liftm A)).
Proof.
  intros x d s HP Ld Nz; assert (HP' := HP); destruct HP' as (Gs & Dx & Lx & HI & HR).
  destruct (fd_columns_at M n (all_abs n) Good _ L Rg _ _ WB (get_memory M s) x d Dx Lx Ld Nz
              ltac:(intros ? ?; exact I) n 0%nat s Gs eq_refl) as (s1 & EC & _).
  exists s1; unfold compute_jacobian_from_finite_difference; rewrite HR; cbn [bind].
  destruct (wb_update _ _ _ _ _ _ _ _ _ WB x Dx Lx) as [_ HU0]; rewrite HU0; cbn [bind].
  rewrite lift_length, Ld, (fp_len _ _ _ _ _ _ FP s Gs), HI, EC; cbn [bind].
  rewrite lift_mat_of_cols.
  change (mat_of_cols n (map (fd_column (residuals_of L Rg) x d) (seq 0 n))) with (fd_matrix n U x d).
  rewrite fd_matrix_affine by assumption; reflexivity.
Qed.

(** ** C30 *)

(** The jacobian is provided and is [A], or the iteratives are finite-difference
    ones with finite positive perturbation parameters. *)
Definition affine_source (its : list (iterative XR)) : Prop :=
  analytic M n (all_abs n) Good (fun _ => True) L Rg (fun _ => A) \/
  (exists ps, its = map iterative_of_params_fd ps /\ Forall finite_fd ps /\
     forall s, Good s -> jacobian_provided M s = false).

Theorem C30_affine : forall rf s x0 tol,
  rf_debug rf = false -> rf_residuals_config rf = all_abs n -> rf_iter rf = O ->
  rf_valid_last rf = true ->
  Forall unlimited (rf_iters_params rf) -> length (rf_iters_params rf) = n ->
  computes_jacobian rf -> affine_source (rf_iters_params rf) ->
  rf_initial_guess rf = lift x0 -> length x0 = n ->
  sp_tolerance (rf_parameters rf) = Fin tol -> 0 <= tol ->
  (1 <= sp_max_iter (rf_parameters rf))%nat ->
  ~ singular n A -> Good s ->
  exists rf' s' x, solve M rf s = Ret (rf', s', Ok tt) /\ get_iteratives M s' = lift x /\
    length x = n /\
    ((rf_iter rf' = O /\ x = x0 /\
      forall i, (i < n)%nat -> Rabs (app n A x0 i - vent b i) <= tol) \/
     (rf_iter rf' = 1%nat /\ forall i, (i < n)%nat -> app n A x i = vent b i)).
Proof.
  intros rf s x0 tol ND HC H0 HV HU LI CJ SRC HG Lx HT Htol HM NS Gs.
  set (E := fun x => vabs (residuals_of L Rg x)).
  destruct (wb_eval _ _ _ _ _ _ _ _ _ WB s x0 Gs I Lx) as (s1 & E1 & P1).
  unfold solve; rewrite HG, E1; cbn [bind]; unfold solve_from.
  rewrite (errors_at M n (all_abs n) Good _ L Rg U E WB rf x0 s1 HC P1); cbn [bind].
  unfold when_debug; rewrite ND; cbn [bind].
  rewrite lift_amax; cbn [iterate].
  unfold ngtb at 1; rewrite HT; cbn [nltb Num_XR xltb]; rewrite H0.
  destruct (Rltb tol (amax (E x0))) eqn:ET; cbn [andb].
  2: { exists rf, s1, x0; cbn [bind]; unfold verdict, ngtb; rewrite HT.
       cbn [nltb Num_XR xltb]; rewrite ET, HV.
       split; [reflexivity|]; split; [apply P1|]; split; [exact Lx|]; left.
       split; [exact H0|]; split; [reflexivity|].
       intros i Hi; apply Rltb_false in ET; unfold E in ET; rewrite amax_vabs in ET.
       rewrite <- affine_residual by assumption; unfold U.
       apply (proj1 (amax_le (residuals_of L Rg x0) tol Htol) ET).
       unfold residuals_of; rewrite (len_sub n); [exact Hi|apply (fp_left _ _ _ _ _ _ FP)|apply (fp_right _ _ _ _ _ _ FP)]; auto. }
  destruct (sp_max_iter (rf_parameters rf)) as [|mi] eqn:EM; [lia|].
  replace (Nat.ltb 0 (S mi)) with true by reflexivity.
  destruct (try_inverse A) as [H|] eqn:EH.
  2: { exfalso; apply NS; apply C60_fails_only_on_singular; assumption. }
  assert (JS : exists z, length z = n /\ jacobian_source M n (all_abs n) Good (fun _ => True) L Rg U rf x0 s1 A z).
  { destruct SRC as [HA|(ps & EP & FF & JP)].
    - exists x0; split; [exact Lx|]; left; exists (fun _ => A); auto.
    - destruct (finite_fd_perturbations ps x0 FF) as (d & D1 & D2 & D3).
      { rewrite Lx, <- LI, EP, map_length; reflexivity. }
      rewrite Lx in D2, D3.
      exists (fd_last n x0 d); split; [apply fd_last_length; exact Lx|]; right; exists d.
      split; [apply JP, P1|]; split.
      + unfold perturbed_by; rewrite EP; repeat split; auto; intros ? ?; exact I.
      + split; [symmetry; apply fd_matrix_affine; assumption|reflexivity]. }
  destruct JS as (z & Lz & JS).
  destruct (C60_inverse n A H MA EH) as [MH IN].
  assert (LU : forall x, length x = n -> length (U x) = n).
  { intros x Q; apply (wb_update _ _ _ _ _ _ _ _ _ WB x I Q). }
  assert (RT : forall i, (i < n)%nat -> app n A (newton_point U H x0) i = vent b i).
  { intros i Hi; unfold app.
    rewrite (rsum_ext n _ (fun k => ment A i k * vent x0 k
               - ment A i k * rsum n (fun l => ment H k l * vent (U x0) l))).
    2: { intros k Hk; rewrite (newton_point_entry n) by auto; lra. }
    rewrite rsum_minus.
    rewrite (rsum_ext n (fun k => ment A i k * rsum n (fun l => ment H k l * vent (U x0) l))
               (fun k => rsum n (fun l => ment A i k * ment H k l * vent (U x0) l))).
    2: { intros k Hk; rewrite <- rsum_scal_l; apply rsum_ext; intros; lra. }
    rewrite rsum_swap.
    rewrite (rsum_ext n (fun j => rsum n (fun i0 => ment A i i0 * ment H i0 j * vent (U x0) j))
               (fun j => (if Nat.eqb j i then 1 else 0) * vent (U x0) j)).
    2: { intros j Hj; rewrite rsum_scal_r; f_equal.
         destruct (IN i j Hi Hj) as [Q _]; unfold prod in Q; rewrite Q; unfold delta.
         rewrite Nat.eqb_sym; reflexivity. }
    rewrite (rsum_delta n i (vent (U x0)) Hi), affine_residual by assumption.
    unfold app; lra. }
  assert (Lw : length (newton_point U H x0) = n) by (apply (newton_point_length n); assumption).
  assert (EZ : amax (E (newton_point U H x0)) = 0).
  { apply Rle_antisym; [|apply amax_nonneg]; unfold E; rewrite amax_vabs.
    apply amax_le; [lra|]; change (residuals_of L Rg) with U; intros i Hi.
    rewrite LU in Hi by exact Lw.
    rewrite affine_residual by assumption; rewrite RT by exact Hi.
    rewrite Rminus_diag_eq by reflexivity; rewrite Rabs_R0; lra. }
  destruct (iteration_at M n (all_abs n) Good _ L Rg U E WB rf x0 s1 A z H ND HC HU LI CJ P1 JS EH I)
    as (rf2 & s2 & P2 & V2 & F1 & F2 & F3 & F4 & F5 & F6 & EI2).
  { right; rewrite EZ; apply amax_nonneg. }
  rewrite EI2; cbn [bind]; rewrite lift_amax, EZ; cbn [iterate].
  unfold ngtb at 1; rewrite F1, HT; cbn [nltb Num_XR xltb].
  replace (Rltb tol 0) with false by (symmetry; apply Rltb_false; exact Htol).
  cbn [andb bind]; exists rf2, s2, (newton_point U H x0).
  unfold verdict, ngtb; rewrite F1, HT; cbn [nltb Num_XR xltb].
  replace (Rltb tol 0) with false by (symmetry; apply Rltb_false; exact Htol).
  rewrite V2; split; [reflexivity|]; split; [apply P2|]; split; [exact Lw|]; right.
  split; [rewrite F5, H0; reflexivity|exact RT].
Qed.
End Affine.
Print Assumptions C29_affine.
Print Assumptions C30_affine.

(** The statement for the adapters of the crate and the constructors. *)
Definition affine_fun (A : mat R) (b : vec R) (x : vec XR) : vec XR :=
  vsub_raw (mat_vec (liftm A) x) (lift b).

Lemma affine_fun_lift n A b x : square n A -> length b = n -> length x = n ->
  affine_fun A b (lift x) = lift (vsub_raw (mat_vec A x) b) /\
  length (vsub_raw (mat_vec A x) b) = n.
Proof.
  intros MA Lb Lx; unfold affine_fun; rewrite lift_mat_vec, lift_vsub_raw; split; [reflexivity|].
  apply (len_sub n); [apply (len_mat_vec n); exact MA|exact Lb].
Qed.

Lemma affine_fun_affine n A b : square n A -> length b = n ->
  affine n (fun x => vsub_raw (mat_vec A x) b) (fun _ => vzeros n) A b.
Proof.
  intros MA Lb x i Lx Hi.
  rewrite (ent_sub n); [|apply (len_mat_vec n); exact MA|exact Lb|exact Hi].
  rewrite (ent_mat_vec n) by assumption.
  replace (vent (vzeros n) i) with 0 by (symmetry; exact (nth_repeat 0 n i)).
  unfold app; lra.
Qed.

Definition jac_iteratives (n : nat) : list (iterative XR) :=
  map iterative_of_params (default_vec_iteratives n).
Definition fd_iteratives (n : nat) : list (iterative XR) :=
  map iterative_of_params_fd (default_vec_iteratives_fd n).

(** The conclusion of C30. *)
Definition solved_in_one (n : nat) (A : mat R) (b x0 : vec R) (tol : R)
  (r : outcome (rootfinder XR * user_model XR * result unit (solver_error Empty_set Empty_set)))
  : Prop :=
  exists rf' s' x, r = Ret (rf', s', Ok tt) /\ um_inputs s' = lift x /\ length x = n /\
    ((rf_iter rf' = O /\ x = x0 /\
      forall i, (i < n)%nat -> Rabs (app n A x0 i - vent b i) <= tol) \/
     (rf_iter rf' = 1%nat /\ forall i, (i < n)%nat -> app n A x i = vent b i)).

Theorem C30_solved_in_one_iteration : forall n A b x0 tol maxit m damping rf,
  square n A -> ~ singular n A -> length b = n -> length x0 = n -> 0 <= tol -> (1 <= maxit)%nat ->
  (rootfinder_new (mkSolverParameters n (Fin tol) maxit m damping) (lift x0)
     (jac_iteratives n) (all_abs n) = Ret rf ->
   solved_in_one n A b x0 tol
     (solve (model_from_function_and_jacobian (affine_fun A b) (fun _ => liftm A)) rf
        (user_model_new n)) /\
   solved_in_one n A b x0 tol
     (solve (model_from_closure_and_jacobian (affine_fun A b) (fun _ => liftm A)) rf
        (user_model_new n))) /\
  (rootfinder_new (mkSolverParameters n (Fin tol) maxit m damping) (lift x0)
     (fd_iteratives n) (all_abs n) = Ret rf ->
   solved_in_one n A b x0 tol
     (solve (model_from_function (affine_fun A b)) rf (user_model_new n)) /\
   solved_in_one n A b x0 tol
     (solve (model_from_closure (affine_fun A b)) rf (user_model_new n))).
Proof.
  intros n A b x0 tol maxit m damping rf MA NS Lb Lx Htol HM.
  assert (NEW : forall its, length its = n ->
    rootfinder_new (mkSolverParameters n (Fin tol) maxit m damping) (lift x0) its (all_abs n) = Ret rf ->
    rf = mkRootFinder (mkSolverParameters n (Fin tol) maxit m damping) (lift x0) its (all_abs n)
           false 0 None jacobian_matrix_new None None None true).
  { intros its LI E; unfold rootfinder_new in E.
    repeat match type of E with (if ?c then _ else _) = _ => destruct c; [discriminate|] end.
    congruence. }
  assert (HF : forall x, True -> length x = n ->
    affine_fun A b (lift x) = lift (vsub_raw (mat_vec A x) b) /\
    length (vsub_raw (mat_vec A x) b) = n).
  { intros x _ Q; apply affine_fun_lift; assumption. }
  split; intros E.
  - apply NEW in E; [|unfold jac_iteratives, default_vec_iteratives; rewrite map_length, repeat_length; reflexivity].
    subst rf.
    assert (K : solved_in_one n A b x0 tol
      (solve (model_from_function_and_jacobian (affine_fun A b) (fun _ => liftm A))
        (mkRootFinder (mkSolverParameters n (Fin tol) maxit m damping) (lift x0)
           (jac_iteratives n) (all_abs n) false 0 None jacobian_matrix_new None None None true)
        (user_model_new n))); [|split; exact K].
    apply (C30_affine _ n (adapter_good n) _ (fun _ => vzeros n) A b
             (adapter_problem n (fun _ => True) _ _ HF _ _)
             (affine_fun_affine n A b MA Lb) MA); try reflexivity; try assumption.
    + apply default_jac_unlimited.
    + cbn [rf_iters_params]; unfold jac_iteratives, default_vec_iteratives.
      rewrite map_length, repeat_length; reflexivity.
    + right; reflexivity.
    + left; apply adapter_analytic; [exact HF|]; intros; split; [reflexivity|exact MA].
    + apply fresh_good.
  - apply NEW in E; [|unfold fd_iteratives, default_vec_iteratives_fd; rewrite map_length, repeat_length; reflexivity].
    subst rf.
    assert (K : solved_in_one n A b x0 tol
      (solve (model_from_function (affine_fun A b))
        (mkRootFinder (mkSolverParameters n (Fin tol) maxit m damping) (lift x0)
           (fd_iteratives n) (all_abs n) false 0 None jacobian_matrix_new None None None true)
        (user_model_new n))); [|split; exact K].
    apply (C30_affine _ n (adapter_good n) _ (fun _ => vzeros n) A b
             (adapter_problem n (fun _ => True) _ _ HF _ _)
             (affine_fun_affine n A b MA Lb) MA); try reflexivity; try assumption.
    + apply default_fd_unlimited.
    + cbn [rf_iters_params]; unfold fd_iteratives, default_vec_iteratives_fd.
      rewrite map_length, repeat_length; reflexivity.
    + right; reflexivity.
    + right; exists (default_vec_iteratives_fd n); split; [reflexivity|].
      split; [apply default_fd_finite|]; intros; reflexivity.
    + apply fresh_good.
Qed.
Print Assumptions C30_solved_in_one_iteration.
