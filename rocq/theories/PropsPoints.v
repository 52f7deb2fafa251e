(** C19: the points at which a run evaluates the model, finite differences
    included. *)
From Verif Require Import Base Num Linalg Residuals Iteratives UserModel Jacobian Solver Trace
  F64 F64Facts Tactics FlowFacts FlagFacts TraceFacts Samples Fresh Reach StepFacts PropsVerdict PropsLimits
  PropsStep PropsFD PropsRun.
Open Scope nat_scope.

(** [d] is the perturbation of variable [j] of [y]; a variable without
    parameters is not perturbed. *)
Definition perturbation_at {F} {NF : Num F} (its : list (iterative F)) (y : vec F) (j : nat) (d : F) : Prop :=
  match nth_error its j with
  | Some it => exists v, nth_error y j = Some v /\ it_compute_perturbation it v = Ret d
  | None => d = n0
  end.
(** [x] is [y] with one variable moved by its perturbation. *)
Definition perturbed_point {F} {NF : Num F} (its : list (iterative F)) (y x : vec F) : Prop :=
  exists j d, perturbation_at its y j d /\ x = shift y j d.

Section Points.
Context {F : Type} {NF : Num F} {IF : Inverter F} {St EI EU : Type} (M : Model F St EI EU).

Lemma compute_perturbations_at : forall its (y dx : vec F), compute_perturbations its y = Ret dx ->
  forall j d, nth_error dx j = Some d -> perturbation_at its y j d.
Proof.
  induction its as [|it its IH]; intros y dx H j d Hd.
  - cbn [compute_perturbations] in H; injection H as <-; unfold perturbation_at.
    destruct j; cbn [nth_error]; unfold vzeros in Hd; apply nth_error_In, repeat_spec in Hd; exact Hd.
  - destruct y as [|v y]; [discriminate H|]; cbn [compute_perturbations] in H; minv1 H; minv1 H; minv1 H.
    unfold perturbation_at; destruct j as [|j]; cbn [nth_error] in Hd |- *.
    + injection Hd as <-; exists v; auto.
    + exact (IH y _ E0 j d Hd).
Qed.

Lemma points_fd_block mem (cs : list (vec F * call_status)) : points (fd_block mem cs) = map fst cs.
Proof. induction cs as [|c cs IH]; [reflexivity|]; cbn; rewrite <- IH; reflexivity. Qed.

(** The computation of a jacobian evaluates the model at perturbed points of the
    current iterate only. *)
Lemma jac_points : forall rf s t rf' p' r,
  compute_jac (traced M) rf (s, t) = Ret (rf', p', r) ->
  exists s' b, p' = (s', t ++ b) /\
    Forall (perturbed_point (rf_iters_params rf) (get_iteratives M s)) (points b).
Proof.
  intros rf s t rf' [s' t'] r H; apply compute_jac_inv in H; destruct H as (j & r0 & _ & H & _).
  cbn [jacobian_provided traced fst] in H; destruct (jacobian_provided M s).
  - unfold evaluate_jacobian_from_analytical_function in H; minv1 H; minv1 H.
    match goal with X : get_jacobian _ _ = _ |- _ => apply traced_jac_inv in X; destruct X as (s1 & _ & ->) end.
    exists s1, [EJac (status_of b)].
    destruct b as [jv|e']; [minv1 H; destruct (update_jacobian_with_exact_value _ _)|];
      injection H as _ <- <- _; split; try reflexivity; constructor.
  - unfold evaluate_jacobian_from_finite_difference in H; minv1 H; rename E into EP; minv1 H.
    rename E into ED; apply C54_restored in ED; destruct ED as (cs & _ & K & T).
    cbn [get_iteratives traced fst] in EP.
    assert (P : Forall (perturbed_point (rf_iters_params rf) (get_iteratives M s)) (map fst cs)).
    { rewrite Forall_forall; intros z Hz; apply in_map_iff in Hz; destruct Hz as (c & <- & Hc).
      apply In_nth_error in Hc; destruct Hc as (k & Hk); destruct (K k c Hk) as (_ & d & D1 & D2).
      exists k, d; split; [exact (compute_perturbations_at _ _ _ EP k d D1)|exact D2]. }
    destruct a as [s1 t1]; cbn [snd] in T; destruct b as [A|e].
    + destruct T as [-> _]; exists s1, (fd_block (get_memory M s) cs).
      destruct (update_jacobian_with_exact_value _ _); injection H as _ <- <- _.
      rewrite points_fd_block; auto.
    + destruct T as (_ & d & D1 & ->); injection H as _ <- <- _.
      eexists s1, _; split; [reflexivity|].
      rewrite points_app, points_fd_block; apply Forall_app; split; [exact P|].
      constructor; [|constructor]; exists (length cs), d; split; [|reflexivity].
      exact (compute_perturbations_at _ _ _ EP _ d D1).
Qed.

Lemma step_points : forall rf s t rf' p' r,
  compute_step (traced M) rf (s, t) = Ret (rf', p', r) ->
  exists s' b, p' = (s', t ++ b) /\
    Forall (perturbed_point (rf_iters_params rf) (get_iteratives M s)) (points b).
Proof.
  intros rf s t rf' p' r H. unfold compute_step in H.
  destruct (sp_resolution_method (rf_parameters rf)) as [|m].
  - unfold compute_newton_raphson_step in H. minv1 H. rename E into Ec.
    apply jac_points in Ec. destruct Ec as (sx & bx & -> & Hbx).
    minv1 H. destruct b; [minv1 H|]; minv1 H; eauto.
  - unfold compute_quasi_newton_step in H. minv1 H. rename E into Eq.
    assert (Hq : exists s' b', b0 = (s', t ++ b') /\
      Forall (perturbed_point (rf_iters_params rf) (get_iteratives M s)) (points b')).
    { unfold evaluate_jacobian_quasi_newton_step in Eq.
      destruct (jm_compute_at_next (rf_jacobian rf)).
      - minv1 Eq. rename E into Ec. apply jac_points in Ec.
        destruct Ec as (sx & bx & -> & Hbx). minv1 Eq. minv1 Eq. eauto.
      - minv1 Eq. minv1 Eq; [minv1 Eq|]; minv1 Eq; exists s, []; rewrite app_nil_r; split; auto; constructor. }
    destruct Hq as (sx & bx & -> & Hbx). destruct b; [minv1 H|]; minv1 H; eauto.
Qed.
End Points.

(** *** C19 with finite differences *)
Section Box.
Context {IF : Inverter f64} {St EI EU : Type} (M : Model f64 St EI EU) (K : keeps_iteratives M).
Context (its : list (iterative f64)) (ps : list (iterative_params f64)).

Definition allowed (x : vec f64) : Prop :=
  in_box ps x \/ exists y, in_box ps y /\ perturbed_point its y x.

Lemma keeps_traced : keeps_iteratives (traced M).
Proof.
  split.
  - intros [s t] x s1 r H; apply traced_set_eval_inv in H; destruct H as (s' & H & ->).
    cbn [get_iteratives traced fst]; exact (ki_evaluate M K _ _ _ _ H).
  - intros p s1 r H; apply traced_jac_inv in H; destruct H as (s' & H & ->).
    cbn [get_iteratives traced fst]; exact (ki_jacobian M K _ _ _ H).
Qed.

Lemma allowed_iteration : forall rf s t rf' p' r,
  rf_iters_params rf = its -> sp_damping (rf_parameters rf) = false -> limits_of its ps -> ordered ps ->
  in_box ps (get_iteratives M s) -> Forall allowed (points t) ->
  iteration (traced M) rf (s, t) = Ret (rf', p', r) ->
  Forall allowed (points (snd p')) /\ (forall e, r = Ok e -> in_box ps (get_iteratives M (fst p'))).
Proof.
  intros rf s t rf' p' r EI0 Hd Hl Ho HB Ht H. apply iteration_inv in H.
  destruct H as (rf1 & p1 & r1 & Hs & H). assert (Hs' := Hs).
  apply step_points in Hs'. destruct Hs' as (s1 & b & -> & Hb). cbn [rf_iters_params set_iter] in Hb.
  assert (A : Forall allowed (points (t ++ b))).
  { rewrite points_app; apply Forall_app; split; [exact Ht|].
    eapply Forall_impl; [|exact Hb]; intros x Hx; right; exists (get_iteratives M s).
    rewrite <- EI0; auto. }
  destruct r1 as [g|e].
  - apply compute_step_inv in Hs. destruct Hs as (Hj & Hg). specialize (Hg g eq_refl).
    apply same_but_jac_fields in Hj. destruct Hj as ((Hp & _ & Hi & _) & _). cbn in Hp, Hi.
    assert (Hbox : in_box ps g).
    { unfold compute_next_from_inv_jac in Hg. minv1 Hg. minv1 Hg. minv1 Hg. minv1 Hg.
      rewrite Hi, EI0 in Hg. eapply step_limitations_box; eauto. }
    assert (H' := H); apply undamped_update in H'; [|rewrite Hp; exact Hd]. destruct H' as (s2 & k & ->).
    cbn [snd fst]; split.
    + rewrite points_app; apply Forall_app; split; [exact A|].
      constructor; [left; exact Hbox|constructor].
    + intros e ->; apply update_model_inv in H; destruct H as (e0 & p2 & r2 & _ & Hev & H).
      apply traced_set_eval_inv in Hev; destruct Hev as (s3 & Hev & ->).
      destruct H as [(x & _ & _ & _ & [=])|(en & _ & _ & Hf)].
      apply finish_update_full in Hf; destruct Hf as (e1 & _ & Hf & _).
      cbn [rf_parameters set_valid] in Hf; rewrite Hp, Hd in Hf; cbn [andb] in Hf.
      destruct Hf as [[= -> _] _]; rewrite (ki_evaluate M K _ _ _ _ Hev); exact Hbox.
  - destruct H as (_ & -> & ->); cbn [snd]; split; [exact A|discriminate].
Qed.

Lemma allowed_heads : forall rf0 s0 rf p me,
  rf_iters_params rf0 = its -> sp_damping (rf_parameters rf0) = false -> limits_of its ps -> ordered ps ->
  in_box ps (rf_initial_guess rf0) -> loop_head (traced M) rf0 (s0, []) rf p me ->
  Forall allowed (points (snd p)) /\ in_box ps (get_iteratives M (fst p)).
Proof.
  intros rf0 s0 rf p me EI0 Hd Hl Ho Hg H.
  induction H as [p r e rf Hev Hnu He Hdb|rf p me rf1 p1 e Hh IH Hc Hit].
  - apply traced_set_eval_inv in Hev. destruct Hev as (s1 & Hev & ->). cbn [snd fst]; split.
    + constructor; [left; exact Hg|constructor].
    + rewrite (ki_evaluate M K _ _ _ _ Hev); exact Hg.
  - apply loop_head_config in Hh. destruct Hh as (Hp & _ & Hi & _).
    destruct p as [s t], IH as [I1 I2].
    destruct (allowed_iteration rf s t rf1 p1 (Ok e)) as [J1 J2]; auto; [congruence|congruence|].
    split; [exact J1|exact (J2 e eq_refl)].
Qed.
End Box.

(** Without damping, every point given to a model that keeps its iteratives is in
    the box, or is a point of the box with a single variable moved by its
    perturbation. *)
Theorem C19_finite_differences :
  forall (IF : Inverter f64) St EI EU (M : Model f64 St EI EU) rf ps s rf' s' t r,
  keeps_iteratives M -> sp_damping (rf_parameters rf) = false ->
  limits_of (rf_iters_params rf) ps -> ordered ps -> in_box ps (rf_initial_guess rf) ->
  solve (traced M) rf (s, []) = Ret (rf', (s', t), r) ->
  Forall (fun x => in_box ps x \/
            exists y, in_box ps y /\ perturbed_point (rf_iters_params rf) y x) (points t).
Proof.
  intros IF St EI EU M rf ps s rf' s' t r K Hd Hl Ho Hg H.
  change (Forall (allowed (rf_iters_params rf) ps) (points t)).
  destruct (solve_heads _ _ _ _ _ _ H)
    as [(x & _ & _ & Hev)|[(me & Hh & _)|(rf1 & p1 & me & x & Hh & _ & Hit & _)]].
  - apply traced_set_eval_inv in Hev. destruct Hev as (s1 & _ & Hp). injection Hp as _ ->. cbn.
    constructor; [left; exact Hg|constructor].
  - apply (allowed_heads M K (rf_iters_params rf) ps rf s rf' (s', t) me); auto.
  - destruct (allowed_heads M K (rf_iters_params rf) ps rf s rf1 p1 me) as [A B]; auto.
    apply loop_head_config in Hh. destruct Hh as (Hpp & _ & Hi & _).
    destruct p1 as [s1 t1].
    apply (allowed_iteration M K (rf_iters_params rf) ps rf1 s1 t1 rf' (s', t) (Err x)); auto; congruence.
Qed.
Print Assumptions C19_finite_differences.

(** x^2 - 2 from the upper bound 1 of [-1, 1]: the second evaluation is outside,
    at 1 moved by its perturbation. *)
Example C19_finite_differences_case :
  check_run (solve (traced (scripted_model 1 sq2 None always_ok always_ok)) C19_rf (scripted_init 1, []))
    (fun rf p r => match points (snd p), it_compute_perturbation (iterative_of_params_fd C19_params) (Fz 1) with
       | [a] :: [b] :: _, Ret d =>
           neqb a (Fz 1) && nltb (Fz 1) b && neqb b (nadd a d) && nltb n0 d
       | _, _ => false end) = true /\
  keeps_iteratives (scripted_model 1 sq2 None always_ok always_ok).
Proof. split; [vm_compute; reflexivity|apply scripted_keeps]. Qed.
