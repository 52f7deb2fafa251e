(** The model of the solver on exact arithmetic ([XR.v]): residuals, jacobians
    and steps of a user problem with finite values. *)
From Coq Require Import Reals Lra.
From Verif Require Import Base Num Linalg Residuals Iteratives UserModel Jacobian Solver
  RNum LuFacts XR PropsFD.
Open Scope R_scope.

Definition vabs (v : vec R) : vec R := map Rabs v.

(** ** Residuals *)
Lemma lift_evaluate f g : forall methods (l r : vec R),
  (forall x y m, In m methods -> f (Fin x) (Fin y) m = Fin (g x y m)) ->
  length l = length methods -> length r = length methods ->
  evaluate_residuals f methods (lift l) (lift r)
  = Ret (lift (map2 (fun p m => g (fst p) (snd p) m) (combine l r) methods)).
Proof.
  induction methods as [|m methods IH]; intros l r Hf Ll Lr.
  - destruct l; [|discriminate]; destruct r; [|discriminate]; reflexivity.
  - destruct l as [|a l]; [discriminate|]; destruct r as [|b r]; [discriminate|].
    cbn [evaluate_residuals lift map combine map2 fst snd].
    change (map Fin l) with (lift l); change (map Fin r) with (lift r).
    rewrite IH; [|intros; apply Hf; right; assumption|cbn in *; lia|cbn in *; lia].
    cbn [bind]; rewrite Hf by (left; reflexivity); reflexivity.
Qed.

Lemma map2_combine_abs {A} (g : R -> R -> R) : forall (l r : vec R) (ms : list A),
  length l = length ms -> length r = length ms ->
  map2 (fun p (_ : A) => g (fst p) (snd p)) (combine l r) ms = map2 g l r.
Proof.
  induction l as [|a l IH]; intros [|b r] [|m ms] H1 H2; cbn in *; try discriminate; try reflexivity.
  f_equal; apply IH; lia.
Qed.

Lemma map2_ext_in {A B C} (f g : A -> B -> C) : forall u v,
  (forall x y, In y v -> f x y = g x y) -> map2 f u v = map2 g u v.
Proof.
  induction u as [|a u IH]; intros [|b v] H; cbn [map2]; try reflexivity.
  rewrite H by (left; reflexivity); f_equal; apply IH; intros; apply H; right; assumption.
Qed.

Lemma map_map2 {A B C D} (f : C -> D) (g : A -> B -> C) : forall u v,
  map f (map2 g u v) = map2 (fun x y => f (g x y)) u v.
Proof.
  induction u as [|a u IH]; intros [|b v]; cbn [map2 map]; try reflexivity; f_equal; apply IH.
Qed.

Definition all_abs (n : nat) : residuals_config :=
  mkResidualsConfig (repeat Abs n) (repeat Abs n).

Lemma abs_update n (l r : vec R) : length l = n -> length r = n ->
  evaluate_update_residuals (all_abs n) (mkResidualsValues (lift l) (lift r))
  = Ret (lift (vsub_raw l r)).
Proof.
  intros Hl Hr; unfold evaluate_update_residuals; cbn [update_methods rv_left rv_right all_abs].
  rewrite (lift_evaluate normalization (fun x y _ => x - y)).
  - rewrite (map2_combine_abs Rminus); [reflexivity| |]; rewrite repeat_length; assumption.
  - intros x y m Hm; apply repeat_spec in Hm; subst m; reflexivity.
  - rewrite repeat_length; exact Hl.
  - rewrite repeat_length; exact Hr.
Qed.

Lemma abs_stopping n (l r : vec R) : length l = n -> length r = n ->
  evaluate_stopping_residuals (all_abs n) (mkResidualsValues (lift l) (lift r))
  = Ret (lift (vabs (vsub_raw l r))).
Proof.
  intros Hl Hr; unfold evaluate_stopping_residuals; cbn [stopping_criterias rv_left rv_right all_abs].
  rewrite (lift_evaluate _ (fun x y _ => Rabs (x - y))).
  - rewrite (map2_combine_abs (fun x y => Rabs (x - y))) by (rewrite repeat_length; assumption).
    unfold vabs, vsub_raw; rewrite map_map2; reflexivity.
  - intros x y m Hm; apply repeat_spec in Hm; subst m; reflexivity.
  - rewrite repeat_length; exact Hl.
  - rewrite repeat_length; exact Hr.
Qed.

Lemma abs_normalize n (JL JR : mat R) (l r : vec R) :
  is_mat n JL -> is_mat n JR -> length l = n -> length r = n ->
  normalize (mkJacobianValues (liftm JL) (liftm JR)) (mkResidualsValues (lift l) (lift r))
    (repeat Abs n) = Ret (liftm (mat_sub JL JR)).
Proof.
  intros [HL1 HL2] [HR1 HR2] Hl Hr; unfold normalize; cbn [jv_left jv_right rv_left rv_right].
  rewrite lift_length, Hl.
  assert (K : forall m (A B : mat R) (a b : vec R), length A = m -> length B = m ->
    length a = m -> length b = m ->
    (forall i, (i < m)%nat -> length (nth i A []) = n) ->
    normalize_rows n (liftm A) (liftm B) (lift a) (lift b) (repeat Abs m)
    = Ret (liftm (mat_sub A B))).
  { induction m as [|m IH]; intros A B a b LA LB La Lb RA.
    - destruct A; [|discriminate]; destruct a; [reflexivity|discriminate].
    - destruct A as [|ra A]; [discriminate|]; destruct B as [|rb B]; [discriminate|].
      destruct a as [|xa a]; [discriminate|]; destruct b as [|xb b]; [discriminate|].
      cbn [liftm lift map normalize_rows repeat].
      change (map lift A) with (liftm A); change (map lift B) with (liftm B).
      change (map Fin a) with (lift a); change (map Fin b) with (lift b).
      rewrite (IH A B a b); [|cbn in *; lia..|].
      + cbn [bind mat_sub map2 liftm map]; f_equal; f_equal.
        change (map Fin ra) with (lift ra); change (map Fin rb) with (lift rb).
        rewrite lift_length; pose proof (RA 0%nat ltac:(lia)) as Q; cbn [nth] in Q.
        rewrite Q, Nat.sub_diag; cbn [vzeros repeat]; rewrite app_nil_r.
        exact (f_equal (fun w => Ret (w :: liftm (mat_sub A B))) (lift_vsub_raw ra rb)).
      + intros i Hi; exact (RA (S i) ltac:(lia)). }
  apply K; auto.
Qed.

(** ** Perturbed points *)
Lemma shift_length (x : vec R) j d : length (shift x j d) = length x.
Proof.
  unfold shift; rewrite app_length.
  rewrite <- (firstn_skipn j x) at 3; rewrite app_length; f_equal.
  destruct (skipn j x); reflexivity.
Qed.
Lemma shift_vent : forall (x : vec R) j d i, (i < length x)%nat ->
  vent (shift x j d) i = vent x i + (if Nat.eqb i j then d else 0).
Proof.
  induction x as [|a x IH]; intros j d i Hi; [cbn in Hi; lia|].
  destruct j as [|j], i as [|i]; cbn [Nat.eqb]; unfold shift, vent in *;
    cbn [firstn skipn List.app nth]; cbn [nadd Num_R]; try lra.
  apply IH; cbn in Hi; lia.
Qed.
Lemma update_at_lift : forall (x : vec R) j d, (j < length x)%nat ->
  update_at (lift x) j (fun a => nadd a (Fin d)) = Ret (lift (shift x j d)).
Proof.
  induction x as [|a x IH]; intros [|j] d Hj; try (cbn in Hj; lia).
  - reflexivity.
  - cbn [update_at lift map]; change (map Fin x) with (lift x).
    rewrite IH by (cbn in Hj; lia); reflexivity.
Qed.

Lemma nth_error_lift x i : (i < length x)%nat -> nth_error (lift x) i = Some (Fin (vent x i)).
Proof.
  intros H; rewrite lift_nth_error, (nth_error_nth' x 0) by exact H; reflexivity.
Qed.

(** ** Steps without limits *)

(** The step of the iterative is not limited. *)
Definition unlimited (it : iterative XR) : Prop :=
  forall v r, it_step_limitation it (Fin v) (Fin r) = Fin (v + r).

Lemma default_unlimited v r :
  step_limitation default_iterative_params (Fin v) (Fin r) = Fin (v + r).
Proof.
  unfold step_limitation, default_iterative_params.
  cbn [max_step_abs max_step_rel min_value max_value].
  assert (E : nmin ninf (nmul ninf (nabs (Fin v))) = PInf).
  { cbn [ninf nmul nabs Num_XR xmul xabs]; unfold xinf_times.
    destruct (Rlt_dec 0 (Rabs v)); [reflexivity|].
    destruct (Rlt_dec (Rabs v) 0); [pose proof (Rabs_pos v); lra|reflexivity]. }
  rewrite E.
  assert (E2 : nmin PInf (nabs (Fin r)) = Fin (Rabs r)).
  { unfold nmin, nisnan; cbn [neqb nabs nltb Num_XR xeqb xabs xltb].
    replace (Reqb (Rabs r) (Rabs r)) with true by (symmetry; apply Reqb_true; reflexivity).
    reflexivity. }
  rewrite E2.
  assert (E3 : nmul (Fin (Rabs r)) (nsignum (Fin r)) = Fin r).
  { cbn [nmul nsignum Num_XR xmul xsignum]; f_equal; unfold Rsignum.
    destruct (Rlt_dec r 0); [rewrite Rabs_left by assumption; lra|].
    rewrite Rabs_right by lra; lra. }
  rewrite E3, fin_add.
  unfold nmin, nmax, nisnan, nneginf; cbn [neqb nneg ninf nltb Num_XR xeqb xneg xltb].
  replace (Reqb (v + r) (v + r)) with true by (symmetry; apply Reqb_true; reflexivity).
  cbn [negb neqb nltb Num_XR xeqb xltb].
  replace (Reqb (v + r) (v + r)) with true by (symmetry; apply Reqb_true; reflexivity).
  reflexivity.
Qed.

Lemma unlimited_steps : forall its (x p : vec R), Forall unlimited its ->
  length its = length x -> length p = length x ->
  step_limitations its (lift x) (lift p) = Ret (lift (vadd_raw x p)).
Proof.
  induction its as [|it its IH]; intros x p HU Lx Lp.
  - destruct x; [|discriminate]; reflexivity.
  - destruct x as [|a x]; [discriminate|]; destruct p as [|b p]; [discriminate|].
    inversion HU as [|? ? H1 H2]; subst.
    cbn [step_limitations lift map]; change (map Fin x) with (lift x); change (map Fin p) with (lift p).
    rewrite (IH x p) by (cbn in *; auto; lia); cbn [bind]; rewrite H1; reflexivity.
Qed.

(** ** A user problem with finite values

    [Good] are the states of the problem, [D] is the set of points where it can
    be evaluated, [L] and [Rg] give its two members there, [U] and [E] its
    update and stopping residuals for the configuration [conf]. *)
Section Problem.
Context {St EI EU : Type} (M : Model XR St EI EU) (n : nat) (conf : residuals_config)
  (Good : St -> Prop) (D : vec R -> Prop) (L Rg U E : vec R -> vec R).

(** The user problem is in the state left by an evaluation at [x]. *)
Definition at_point (x : vec R) (s : St) : Prop :=
  Good s /\ D x /\ length x = n /\ get_iteratives M s = lift x /\
  get_residuals M s = Ret (mkResidualsValues (lift (L x)) (lift (Rg x))).

Record well_behaved : Prop := {
  wb_len : forall s, Good s -> len_problem M s = n;
  wb_eval : forall s x, Good s -> D x -> length x = n ->
    exists s1, evaluate M (set_iteratives M s (lift x)) = Ret (s1, Ok tt) /\ at_point x s1;
  wb_mem : forall s x m, at_point x s -> at_point x (set_memory M s m);
  wb_update : forall x, D x -> length x = n -> length (U x) = n /\
    evaluate_update_residuals conf (mkResidualsValues (lift (L x)) (lift (Rg x)))
    = Ret (lift (U x));
  wb_stopping : forall x, D x -> length x = n -> length (E x) = n /\
    evaluate_stopping_residuals conf (mkResidualsValues (lift (L x)) (lift (Rg x)))
    = Ret (lift (E x))
}.

Context (WB : well_behaved).

Lemma errors_at rf x s : rf_residuals_config rf = conf -> at_point x s ->
  evaluate_errors M rf s = Ret (lift (E x)).
Proof.
  intros HC (Gs & Dx & Lx & _ & HR); unfold evaluate_errors; rewrite HR, HC; cbn [bind].
  apply (wb_stopping WB x Dx Lx).
Qed.

(** [x - H U(x)] *)
Definition newton_point (H : mat R) (x : vec R) : vec R :=
  vadd_raw x (mat_vec (mat_neg H) (U x)).

Lemma newton_point_length H x : is_mat n H -> length x = n -> length (newton_point H x) = n.
Proof.
  intros MH Lx; unfold newton_point; apply (len_add n); [exact Lx|].
  apply (len_mat_vec n), is_mat_neg, MH.
Qed.
Lemma newton_point_entry H x i : is_mat n H -> length x = n -> length (U x) = n -> (i < n)%nat ->
  vent (newton_point H x) i = vent x i - rsum n (fun k => ment H i k * vent (U x) k).
Proof.
  intros MH Lx LU Hi; unfold newton_point.
  rewrite (ent_add n); [|exact Lx|apply (len_mat_vec n), is_mat_neg, MH|exact Hi].
  rewrite (ent_mat_vec n) by (auto using is_mat_neg).
  replace (rsum n (fun k => ment (mat_neg H) i k * vent (U x) k))
    with (rsum n (fun k => (-1) * (ment H i k * vent (U x) k))).
  - rewrite rsum_scal_l; lra.
  - apply rsum_ext; intros k Hk; rewrite (ent_mneg n) by assumption; lra.
Qed.

Lemma next_at rf x s H : rf_residuals_config rf = conf -> at_point x s ->
  Forall unlimited (rf_iters_params rf) -> length (rf_iters_params rf) = n ->
  jm_inverse (rf_jacobian rf) = Some (liftm H) -> is_mat n H ->
  compute_next_from_inv_jac M rf s = Ret (lift (newton_point H x)).
Proof.
  intros HC (Gs & Dx & Lx & HI & HR) HU LI HJ MH; unfold compute_next_from_inv_jac.
  destruct (wb_update WB x Dx Lx) as [LU HU0].
  rewrite HR, HC; cbn [bind]; rewrite HU0; cbn [bind]; rewrite HJ; cbn [unwrap bind].
  rewrite lift_mat_neg, lift_mat_vec_chk.
  - cbn [bind]; rewrite HI; apply unlimited_steps; [exact HU|congruence|].
    rewrite (len_mat_vec n) by (apply is_mat_neg, MH); congruence.
  - destruct (is_mat_neg n H MH) as [Q _]; rewrite Q; congruence.
Qed.

(** *** The analytical jacobian *)
Definition analytic (J : vec R -> mat R) : Prop :=
  forall s x, at_point x s -> is_mat n (J x) /\ jacobian_provided M s = true /\
  exists s1 jv, get_jacobian M s = Ret (s1, Ok jv) /\ at_point x s1 /\
    normalize jv (mkResidualsValues (lift (L x)) (lift (Rg x))) (update_methods conf)
    = Ret (liftm (J x)).

Definition exact_jacobian (J H : mat R) : jacobian_matrix XR :=
  mkJacobianMatrix (Some (liftm J)) (Some (liftm H)) false false.

Lemma compute_jac_analytic J rf x s : analytic J -> rf_residuals_config rf = conf ->
  at_point x s -> exists s1, at_point x s1 /\
  match lu_inverse (J x) with
  | Some H => compute_jac M rf s = Ret (set_jacobian rf (exact_jacobian (J x) H), s1, Ok tt)
  | None => exists j, compute_jac M rf s = Ret (set_jacobian rf j, s1, Err InvalidJacobianInverseError)
  end.
Proof.
  intros HA HC HP; destruct (HA s x HP) as (_ & JP & s1 & jv & EJ & P1 & EN).
  exists s1; split; [exact P1|].
  unfold compute_jac; rewrite JP; unfold evaluate_jacobian_from_analytical_function.
  destruct HP as (Gs & Dx & Lx & HI & HR); rewrite HR; cbn [bind]; rewrite EJ; cbn [bind].
  rewrite HC, EN; cbn [bind].
  unfold update_jacobian_with_exact_value, update_jacobian.
  cbn [jm_approximated]; unfold try_inverse, Inverter_XR; rewrite lift_lu_inverse.
  destruct (lu_inverse (J x)) as [H|]; cbn [option_map bind]; [reflexivity|].
  eexists; reflexivity.
Qed.

(** *** The finite-difference jacobian *)

(** The points where the finite differences evaluate the problem. *)
Definition fd_points (x d : vec R) : Prop :=
  forall j, (j < n)%nat -> D (shift x j (vent d j)).

Definition fd_column (x d : vec R) (j : nat) : vec R :=
  vdiv (vsub_raw (U (shift x j (vent d j))) (U x)) (vent d j).
Definition fd_matrix (x d : vec R) : mat R := mat_of_cols n (map (fd_column x d) (seq 0 n)).

Lemma fd_column_length x d j : D x -> length x = n -> D (shift x j (vent d j)) ->
  length (fd_column x d j) = n.
Proof.
  intros Dx Lx Ds; unfold fd_column; apply (len_div n), (len_sub n).
  - apply (wb_update WB); [exact Ds|rewrite shift_length; exact Lx].
  - apply (wb_update WB); assumption.
Qed.

Lemma fd_matrix_is_mat x d : is_mat n (fd_matrix x d).
Proof.
  unfold fd_matrix, mat_of_cols; split; [rewrite map_length; apply seq_length|].
  intros i Hi; rewrite (nth_map_in _ _ _ _ 0%nat) by (rewrite seq_length; exact Hi).
  rewrite app_length, !map_length, seq_length; unfold vzeros; rewrite repeat_length; lia.
Qed.
Lemma fd_matrix_entry x d i j : D x -> length x = n -> fd_points x d -> (i < n)%nat -> (j < n)%nat ->
  ment (fd_matrix x d) i j
  = (vent (U (shift x j (vent d j))) i - vent (U x) i) / vent d j.
Proof.
  intros Dx Lx DP Hi Hj; unfold fd_matrix, mat_of_cols, ment.
  rewrite (nth_map_in _ _ _ _ 0%nat) by (rewrite seq_length; exact Hi).
  rewrite app_nth1 by (rewrite !map_length, seq_length; exact Hj).
  rewrite map_map, (nth_map_in _ _ _ _ 0%nat) by (rewrite seq_length; exact Hj).
  rewrite !seq_nth by assumption; rewrite !Nat.add_0_l.
  change (nth i (fd_column x d j) n0) with (vent (fd_column x d j) i).
  destruct (wb_update WB x Dx Lx) as [L1 _].
  destruct (wb_update WB _ (DP j Hj) ltac:(rewrite shift_length; exact Lx)) as [L2 _].
  unfold fd_column; rewrite (ent_div n) by (auto using len_sub).
  rewrite (ent_sub n) by assumption; reflexivity.
Qed.

(** The point where the finite differences leave the problem. *)
Definition fd_last (x d : vec R) : vec R :=
  match n with O => x | S k => shift x k (vent d k) end.

Lemma fd_columns_at mem x d : D x -> length x = n -> length d = n ->
  (forall j, (j < n)%nat -> vent d j <> 0) -> fd_points x d ->
  forall todo i s, Good s -> (i + todo = n)%nat ->
  exists s', finite_difference_columns M conf n mem (lift x) (lift (U x)) (lift d) todo i s
    = Ret (s', Ok (map lift (map (fd_column x d) (seq i todo)))) /\
    match todo with
    | O => s' = s
    | S _ => at_point (shift x (n - 1) (vent d (n - 1))) s'
    end.
Proof.
  intros Dx Lx Ld Nz DP; induction todo as [|todo IH]; intros i s Gs Hn.
  - exists s; split; reflexivity.
  - assert (Hi : (i < n)%nat) by lia.
    cbn [finite_difference_columns]; unfold index.
    rewrite nth_error_lift by lia; cbn [bind].
    rewrite update_at_lift by lia; cbn [bind].
    assert (Ls : length (shift x i (vent d i)) = n) by (rewrite shift_length; exact Lx).
    destruct (wb_eval WB s (shift x i (vent d i)) Gs (DP i Hi) Ls) as (s1 & E1 & P1).
    rewrite E1; cbn [bind].
    destruct P1 as (Q0 & Q1 & Q2 & Q3 & Q4); rewrite Q4; cbn [bind].
    destruct (wb_update WB _ (DP i Hi) Ls) as [LU HU0]; rewrite HU0; cbn [bind].
    destruct (wb_update WB x Dx Lx) as [LU0 _].
    rewrite lift_vsub by congruence; cbn [bind].
    rewrite lift_vdiv by (apply Nz, Hi).
    change (vdiv (vsub_raw (U (shift x i (vent d i))) (U x)) (vent d i)) with (fd_column x d i).
    rewrite lift_length, fd_column_length, Nat.eqb_refl by auto.
    cbn [guard_shape].
    assert (P2 : at_point (shift x i (vent d i)) (set_memory M s1 mem)).
    { apply (wb_mem WB); repeat split; assumption. }
    destruct (IH (S i) (set_memory M s1 mem) (proj1 P2) ltac:(lia)) as (s' & E2 & T).

    rewrite E2; cbn [bind]; exists s'; split; [reflexivity|].
    destruct todo as [|todo]; [|exact T].
    subst s'; replace (n - 1)%nat with i by lia; exact P2.
Qed.

Lemma fd_last_length x d : length x = n -> length (fd_last x d) = n.
Proof. unfold fd_last; destruct n; intros; [assumption|rewrite shift_length; assumption]. Qed.

(** The perturbations chosen at [x]. *)
Definition perturbed_by (its : list (iterative XR)) (x d : vec R) : Prop :=
  compute_perturbations its (lift x) = Ret (lift d) /\ length d = n /\
  (forall j, (j < n)%nat -> vent d j <> 0) /\ fd_points x d.

Lemma compute_jac_fd rf x d s : jacobian_provided M s = false -> rf_residuals_config rf = conf ->
  at_point x s -> perturbed_by (rf_iters_params rf) x d ->
  exists s1, at_point (fd_last x d) s1 /\
  match lu_inverse (fd_matrix x d) with
  | Some H => compute_jac M rf s = Ret (set_jacobian rf (exact_jacobian (fd_matrix x d) H), s1, Ok tt)
  | None => exists j, compute_jac M rf s = Ret (set_jacobian rf j, s1, Err InvalidJacobianInverseError)
  end.
Proof.
  intros JP HC HP (EP & Ld & Nz & DP).
  assert (HP' := HP); destruct HP' as (Gs & Dx & Lx & HI & HR).
  destruct (fd_columns_at (get_memory M s) x d Dx Lx Ld Nz DP n 0%nat s Gs eq_refl) as (s1 & EC & T).
  exists s1; split.
  { unfold fd_last; destruct n as [|k]; [subst s1; exact HP|].
    replace (S k - 1)%nat with k in T by lia; exact T. }
  unfold compute_jac; rewrite JP; unfold evaluate_jacobian_from_finite_difference.
  rewrite HI, EP; cbn [bind]; unfold compute_jacobian_from_finite_difference.
  rewrite HR, HC; cbn [bind].
  destruct (wb_update WB x Dx Lx) as [_ HU0]; rewrite HU0; cbn [bind].
  rewrite lift_length, Ld, (wb_len WB s Gs), HI, EC; cbn [bind].
  rewrite lift_mat_of_cols; change (mat_of_cols n (map (fd_column x d) (seq 0 n))) with (fd_matrix x d).
  unfold update_jacobian_with_exact_value, update_jacobian.
  cbn [jm_approximated]; unfold try_inverse, Inverter_XR; rewrite lift_lu_inverse.
  destruct (lu_inverse (fd_matrix x d)) as [H|]; cbn [option_map bind]; [reflexivity|].
  eexists; reflexivity.
Qed.

(** The Newton step from the last perturbed point leads to the same point as
    the Newton step from [x]. *)
Lemma newton_at_last x d H : D x -> length x = n -> length d = n ->
  (forall j, (j < n)%nat -> vent d j <> 0) -> fd_points x d ->
  is_mat n H -> mat_mul H (fd_matrix x d) = identity n ->
  newton_point H (fd_last x d) = newton_point H x.
Proof.
  intros Dx Lx Ld Nz DP MH HI.
  assert (HN : n = O \/ exists k, n = S k) by (destruct n; eauto).
  destruct HN as [HN|[k HN]].
  { unfold fd_last; rewrite HN; reflexivity. }
  assert (Hk : (k < n)%nat) by lia.
  assert (EZ : fd_last x d = shift x k (vent d k)) by (unfold fd_last; rewrite HN; reflexivity).
  rewrite EZ; set (z := shift x k (vent d k)).
  assert (Lz : length z = n) by (unfold z; rewrite shift_length; exact Lx).
  destruct (wb_update WB x Dx Lx) as [LU _].
  destruct (wb_update WB z (DP k Hk) Lz) as [LUz _].
  apply (vec_ext _ _ n); [apply newton_point_length; assumption..|].
  intros i Hi; rewrite !newton_point_entry by assumption.
  assert (Q : rsum n (fun j => ment H i j * ment (fd_matrix x d) j k)
              = if Nat.eqb i k then 1 else 0).
  { rewrite <- (ent_mul n) by (auto using fd_matrix_is_mat); rewrite HI.
    apply (ent_identity n); assumption. }
  assert (Q2 : rsum n (fun j => ment H i j * vent (U z) j)
               = rsum n (fun j => ment H i j * vent (U x) j)
                 + vent d k * rsum n (fun j => ment H i j * ment (fd_matrix x d) j k)).
  { rewrite <- rsum_scal_l, <- rsum_plus; apply rsum_ext; intros j Hj.
    rewrite fd_matrix_entry by assumption; fold z; field; apply Nz, Hk. }
  rewrite Q2, Q; unfold z; rewrite shift_vent by lia.
  destruct (Nat.eqb i k); lra.
Qed.

(** *** The jacobian in use, from either source *)
Definition jacobian_source (rf : rootfinder XR) (x : vec R) (s : St) (J : mat R) (z : vec R) : Prop :=
  (exists JA, analytic JA /\ J = JA x /\ z = x) \/
  (exists d, jacobian_provided M s = false /\ perturbed_by (rf_iters_params rf) x d /\
     J = fd_matrix x d /\ z = fd_last x d).

(** The step computes a new jacobian (instead of an approximation of it). *)
Definition computes_jacobian (rf : rootfinder XR) : Prop :=
  is_quasi_newton (sp_resolution_method (rf_parameters rf)) = false \/
  jm_compute_at_next (rf_jacobian rf) = true.

Lemma step_at rf x s J z : rf_debug rf = false -> rf_residuals_config rf = conf ->
  Forall unlimited (rf_iters_params rf) -> length (rf_iters_params rf) = n ->
  computes_jacobian rf -> at_point x s -> jacobian_source rf x s J z ->
  exists s1, at_point z s1 /\
  match lu_inverse J with
  | Some H => is_mat n J /\ is_mat n H /\ mat_mul J H = identity n /\ mat_mul H J = identity n /\
      compute_step M rf s
      = Ret (set_jacobian rf (exact_jacobian J H), s1, Ok (lift (newton_point H x)))
  | None => exists j, compute_step M rf s
      = Ret (set_jacobian rf j, s1, Err InvalidJacobianInverseError)
  end.
Proof.
  intros ND HC HU LI CJ HP JS.
  assert (MJ : is_mat n J).
  { destruct JS as [(JA & HA & -> & ->)|(d & _ & _ & -> & _)];
      [apply (HA s x HP)|apply fd_matrix_is_mat]. }
  assert (EJ : exists s1, at_point z s1 /\
    match lu_inverse J with
    | Some H => compute_jac M rf s = Ret (set_jacobian rf (exact_jacobian J H), s1, Ok tt)
    | None => exists j, compute_jac M rf s = Ret (set_jacobian rf j, s1, Err InvalidJacobianInverseError)
    end).
  { destruct JS as [(JA & HA & -> & ->)|(d & JP & PB & -> & ->)].
    - apply compute_jac_analytic; assumption.
    - apply compute_jac_fd; assumption. }
  destruct EJ as (s1 & P1 & EJ); exists s1; split; [exact P1|].
  assert (W : forall r rf', rf_debug rf' = false ->
    (r : outcome (rootfinder XR)) = r -> when_debug rf' r = Ret rf').
  { intros r rf' Q _; unfold when_debug; rewrite Q; reflexivity. }
  destruct (lu_inverse J) as [H|] eqn:EH.
  - destruct (lu_inverse_exact n J H MJ EH) as (MH & I1 & I2).
    repeat split; try assumption; try apply MJ; try apply MH.
    assert (EN : compute_next_from_inv_jac M (set_jacobian rf (exact_jacobian J H)) s1
                 = Ret (lift (newton_point H x))).
    { rewrite (next_at _ z s1 H); auto.
      f_equal; f_equal.
      destruct JS as [(JA & HA & EJ1 & ->)|(d & JP & (EP & Ld & Nz & DP) & EJ1 & ->)]; [reflexivity|].
      destruct HP as (Gs & Dx & Lx & _); apply newton_at_last; auto; rewrite <- EJ1; exact I2. }
    unfold compute_step.
    destruct (sp_resolution_method (rf_parameters rf)) as [|qm] eqn:EM.
    + unfold compute_newton_raphson_step; rewrite EJ; cbn [bind].
      rewrite W by auto; cbn [bind]; rewrite EN; reflexivity.
    + unfold compute_quasi_newton_step, evaluate_jacobian_quasi_newton_step.
      destruct CJ as [Q|Q]; [rewrite EM in Q; discriminate Q|rewrite Q, EJ; cbn [bind]].
      rewrite W by auto; cbn [bind]; rewrite EN; reflexivity.
  - destruct EJ as [j EJ]; exists j; unfold compute_step.
    destruct (sp_resolution_method (rf_parameters rf)) as [|qm] eqn:EM.
    + unfold compute_newton_raphson_step; rewrite EJ; cbn [bind].
      rewrite W by auto; reflexivity.
    + unfold compute_quasi_newton_step, evaluate_jacobian_quasi_newton_step.
      destruct CJ as [Q|Q]; [rewrite EM in Q; discriminate Q|rewrite Q, EJ; cbn [bind]].
      rewrite W by auto; reflexivity.
Qed.

(** *** An iteration which is not damped *)
Definition no_worse (rf : rootfinder XR) (z w : vec R) : Prop :=
  sp_damping (rf_parameters rf) = false \/ amax (E w) <= amax (E z).

Lemma iteration_at rf x s J z H : rf_debug rf = false -> rf_residuals_config rf = conf ->
  Forall unlimited (rf_iters_params rf) -> length (rf_iters_params rf) = n ->
  computes_jacobian rf -> at_point x s -> jacobian_source rf x s J z ->
  lu_inverse J = Some H -> D (newton_point H x) -> no_worse rf z (newton_point H x) ->
  exists rf' s', at_point (newton_point H x) s' /\ rf_valid_last rf' = true /\
    rf_parameters rf' = rf_parameters rf /\ rf_residuals_config rf' = conf /\
    rf_iters_params rf' = rf_iters_params rf /\ rf_debug rf' = false /\
    rf_iter rf' = S (rf_iter rf) /\ rf_jacobian rf' = exact_jacobian J H /\
    iteration M rf s = Ret (rf', s', Ok (lift (E (newton_point H x)))).
Proof.
  intros ND HC HU LI CJ HP JS EH DN NW.
  set (w := newton_point H x) in *.
  destruct (step_at (set_iter rf (S (rf_iter rf))) x s J z ND HC HU LI CJ HP JS) as (s1 & P1 & ES).
  rewrite EH in ES; destruct ES as (MJ & MH & I1 & I2 & ES).
  unfold iteration; rewrite ES; cbn [bind]; fold w.
  set (rf1 := set_jacobian _ _).
  unfold update_model; rewrite (errors_at rf1 z s1) by auto; cbn [bind].
  assert (Lw : length w = n).
  { apply newton_point_length; [exact MH|]; destruct HP as (_ & _ & Q & _); exact Q. }
  destruct (wb_eval WB s1 w (proj1 P1) DN Lw) as (s2 & E2 & P2); rewrite E2; cbn [bind].
  set (rf2 := set_valid rf1 true).
  assert (Q2 : rf_residuals_config rf2 = conf) by exact HC.
  unfold finish_update; rewrite (errors_at rf2 w s2) by auto; cbn [bind].
  unfold when_debug at 1; replace (rf_debug rf2) with false by (symmetry; exact ND); cbn [bind].
  assert (ED : (if sp_damping (rf_parameters rf2)
     then damping M rf2 s2 (amax (lift (E z))) (get_iteratives M s1) (lift w) (lift (E w))
     else Ret (rf2, s2, lift (E w))) = Ret (rf2, s2, lift (E w))).
  { change (rf_parameters rf2) with (rf_parameters rf).
    destruct NW as [Q|Q]; [rewrite Q; reflexivity|].
    destruct (sp_damping (rf_parameters rf)); [|reflexivity].
    unfold damping; rewrite !lift_amax; unfold ngtb; cbn [nltb Num_XR xltb].
    replace (Rltb (amax (E z)) (amax (E w))) with false; [reflexivity|].
    symmetry; apply Rltb_false; exact Q. }
  rewrite ED; cbn [bind].
  assert (E3 : exists rf3, store_steps M rf2 s2 (get_iteratives M s1) (lift (E z)) (lift (E w))
     = Ret rf3 /\ rf_valid_last rf3 = true /\
    rf_parameters rf3 = rf_parameters rf /\ rf_residuals_config rf3 = conf /\
    rf_iters_params rf3 = rf_iters_params rf /\ rf_debug rf3 = false /\
    rf_iter rf3 = S (rf_iter rf) /\ rf_jacobian rf3 = exact_jacobian J H).
  { assert (B : exists rf3, store_steps M rf2 s2 (get_iteratives M s1) (lift (E z)) (lift (E w))
     = Ret rf3 /\ (rf3 = rf2 \/ exists a b c, rf3 = set_steps rf2 a b c)).
    { unfold store_steps; destruct P1 as (_ & Dz & Lz & -> & _), P2 as (_ & Dw & _ & -> & _).
      destruct (wb_stopping WB z Dz Lz) as [LE1 _], (wb_stopping WB w Dw Lw) as [LE2 _].
      rewrite !lift_vsub by congruence; cbn [bind].
      destruct (sp_resolution_method (rf_parameters rf2)) as [|[|u|u]]; eauto 8. }
    destruct B as (rf3 & B1 & B2); exists rf3; split; [exact B1|].
    destruct B2 as [->|(a & b & c & ->)]; repeat split; assumption. }
  destruct E3 as (rf3 & E3 & F1 & F2 & F3 & F4 & F5 & F6 & F7).
  rewrite E3; cbn [bind]; exists rf3, s2; repeat split; try assumption; try apply P2.
Qed.

End Problem.

(** ** The maximum norm *)
Lemma amax_le (v : vec R) t : 0 <= t -> (amax v <= t <-> forall i, (i < length v)%nat -> Rabs (vent v i) <= t).
Proof.
  intros Ht.
  assert (K : forall l a, fold_left (fun a b : R => let b := nabs b in if ngeb a b then a else b) l a <= t
    <-> a <= t /\ forall i, (i < length l)%nat -> Rabs (vent l i) <= t).
  { induction l as [|b l IH]; intros a; cbn [fold_left length].
    - split; [intros H; split; [exact H|intros; lia]|intros [H _]; exact H].
    - rewrite IH; clear IH; unfold ngeb; cbn [nabs nleb Num_R].
      split.
      + intros [H1 H2]; destruct (Rleb (Rabs b) a) eqn:Q.
        * apply Rleb_true in Q; split; [exact H1|]; intros [|i] Hi; cbn; [lra|apply H2; lia].
        * apply Rleb_false in Q; split; [lra|]; intros [|i] Hi; cbn; [lra|apply H2; lia].
      + intros [H1 H2]; pose proof (H2 0%nat ltac:(lia)) as H0; cbn in H0; split.
        * destruct (Rleb (Rabs b) a); assumption.
        * intros i Hi; exact (H2 (S i) ltac:(lia)). }
  destruct v as [|a v]; cbn [amax].
  - cbn [nabs n0 Num_R nofZ]; unfold n0; cbn [nofZ Num_R]; rewrite Rabs_R0.
    split; [intros; cbn in *; lia|intros; exact Ht].
  - rewrite K; cbn [nabs Num_R]; split.
    + intros [H1 H2] [|i] Hi; cbn; [exact H1|apply H2; cbn in Hi; lia].
    + intros H; split; [exact (H 0%nat ltac:(cbn; lia))|intros i Hi; exact (H (S i) ltac:(cbn; lia))].
Qed.
Lemma amax_nonneg (v : vec R) : 0 <= amax v.
Proof.
  destruct v as [|a v]; cbn [amax]; [cbn [nabs Num_R]; apply Rabs_pos|].
  assert (K : forall l a, 0 <= a ->
    0 <= fold_left (fun a b : R => let b := nabs b in if ngeb a b then a else b) l a).
  { induction l as [|b l IH]; intros c Hc; cbn [fold_left]; [exact Hc|].
    apply IH; destruct (ngeb c (nabs b)); [exact Hc|apply Rabs_pos]. }
  apply K, Rabs_pos.
Qed.
Lemma amax_vabs (v : vec R) : amax (vabs v) = amax v.
Proof.
  assert (K : forall l a,
    fold_left (fun a b : R => let b := nabs b in if ngeb a b then a else b) (map Rabs l) a
    = fold_left (fun a b : R => let b := nabs b in if ngeb a b then a else b) l a).
  { induction l as [|b l IH]; intros a; cbn [fold_left map]; [reflexivity|].
    rewrite IH; cbn [nabs Num_R]; rewrite Rabs_Rabsolu; reflexivity. }
  destruct v as [|a v]; cbn [amax vabs map]; [reflexivity|].
  change (map Rabs v) with (vabs v); unfold vabs; rewrite K.
  cbn [nabs Num_R]; rewrite Rabs_Rabsolu; reflexivity.
Qed.

(** ** Perturbations of [IterativeParamsFD] *)

(** The perturbation parameters are finite and positive. *)
Definition finite_fd (p : iterative_params_fd XR) : Prop :=
  exists a r, fd_dx_abs p = Fin a /\ fd_dx_rel p = Fin r /\ 0 < a /\ 0 < r.

Lemma finite_fd_perturbation p x : finite_fd p ->
  exists d, compute_perturbation p (Fin x) = Fin d /\ 0 < d.
Proof.
  intros (a & r & Ea & Er & Ha & Hr); unfold compute_perturbation; rewrite Ea, Er.
  pose proof (Rabs_pos x) as Hx.
  pose proof (Rmult_le_pos (Rabs x) r Hx ltac:(lra)) as Hm.
  change (nmul (nabs (Fin x)) (Fin r)) with (Fin (Rabs x * r)).
  destruct (fd_method p).
  - unfold nmax, nisnan; cbn [neqb nltb Num_XR xeqb xltb].
    replace (Reqb a a) with true by (symmetry; apply Reqb_true; reflexivity).
    replace (Reqb (Rabs x * r) (Rabs x * r)) with true by (symmetry; apply Reqb_true; reflexivity).
    cbn [negb]; destruct (Rltb a (Rabs x * r)) eqn:Q; eexists; split; try reflexivity; [|exact Ha].
    apply Rltb_true in Q; lra.
  - eexists; split; [reflexivity|lra].
Qed.

Lemma finite_fd_perturbations : forall ps (x : vec R), Forall finite_fd ps -> length ps = length x ->
  exists d, compute_perturbations (map iterative_of_params_fd ps) (lift x) = Ret (lift d) /\
    length d = length x /\ forall j, (j < length x)%nat -> vent d j <> 0.
Proof.
  induction ps as [|p ps IH]; intros [|a x] HF HL; try discriminate.
  - exists []; repeat split; cbn; intros; lia.
  - inversion HF as [|? ? H1 H2]; subst.
    destruct (IH x H2 ltac:(cbn in HL; lia)) as (d & E1 & E2 & E3).
    destruct (finite_fd_perturbation p a H1) as (d0 & E0 & P0).
    exists (d0 :: d); cbn [map compute_perturbations lift].
    change (map Fin x) with (lift x); change (map Fin d) with (lift d).
    cbn [it_compute_perturbation iterative_of_params_fd bind]; rewrite E1, E0; cbn [bind].
    split; [reflexivity|]; split; [cbn; lia|].
    intros [|j] Hj; cbn; [lra|apply E3; cbn in Hj; lia].
Qed.

Lemma default_fd_finite n : Forall finite_fd (default_vec_iteratives_fd n).
Proof.
  apply Forall_forall; intros p Hp; apply repeat_spec in Hp; subst p.
  exists (5 / 100000000), (5 / 100000000); unfold default_iterative_params_fd, ndec.
  cbn [fd_dx_abs fd_dx_rel]; rewrite <- (fin_div 5 100000000) by lra.
  repeat split; lra.
Qed.
Lemma default_fd_unlimited n :
  Forall unlimited (map iterative_of_params_fd (default_vec_iteratives_fd n)).
Proof.
  apply Forall_forall; intros it H; apply in_map_iff in H; destruct H as (p & <- & Hp).
  apply repeat_spec in Hp; subst p; intros v r; apply default_unlimited.
Qed.
Lemma default_jac_unlimited n :
  Forall unlimited (map iterative_of_params (default_vec_iteratives n : list (iterative_params XR))).
Proof.
  apply Forall_forall; intros it H; apply in_map_iff in H; destruct H as (p & <- & Hp).
  apply repeat_spec in Hp; subst p; intros v r; apply default_unlimited.
Qed.

(** ** One equation *)
Lemma lu_inverse_1 (j : R) :
  lu_inverse [[j]] = if Reqb j 0 then None else Some [[1 / j]].
Proof.
  unfold lu_inverse; cbn [length].
  change (identity 1) with [[1 : R]].
  cbn [combine lu_forward map icamax icamax_from fst hd swap_rows].
  change (neqb j n0) with (Reqb j 0); destruct (Reqb j 0); [reflexivity|].
  cbn [lu_forward lu_backward combine tl fold_right vdiv map hd]; reflexivity.
Qed.
