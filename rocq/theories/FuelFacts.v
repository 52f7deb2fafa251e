(** The fuel of the loop is never exhausted. *)
From Verif Require Import Base Num Linalg Residuals Iteratives UserModel Jacobian Solver
  Tactics FlowFacts.

Definition nofuel {A} (o : outcome A) : Prop := o <> Panic PanicFuel.

Lemma nofuel_bind : forall A B (o : outcome A) (k : A -> outcome B),
  nofuel o -> (forall a, o = Ret a -> nofuel (k a)) -> nofuel (bind o k).
Proof.
  intros A B [a|p] k H Hk; cbn.
  - now apply Hk.
  - intros [= ->]. now apply H.
Qed.
Lemma nofuel_ret : forall A (a : A), nofuel (Ret a).
Proof. discriminate. Qed.
Lemma nofuel_unwrap : forall A (o : option A), nofuel (unwrap o).
Proof. intros A []; discriminate. Qed.
Lemma nofuel_index : forall A (v : list A) i, nofuel (index v i).
Proof. intros A v i. unfold index. destruct (nth_error v i); discriminate. Qed.
Lemma nofuel_update_at : forall A (v : list A) i f, nofuel (update_at v i f).
Proof.
  intros A v. induction v as [|x v IH]; intros [|i] f; cbn; try discriminate.
  apply nofuel_bind; [apply IH|discriminate].
Qed.

Section Fuel.
Context {F : Type} {NF : Num F} {IF : Inverter F}.
Context {St EI EU : Type} (M : Model F St EI EU).
Notation rootfinder := (rootfinder F).

Lemma nofuel_guard : forall A b (k : outcome A), nofuel k -> nofuel (guard_shape b k).
Proof. intros A [] k H; [exact H|discriminate]. Qed.
Lemma nofuel_vsub : forall u v : vec F, nofuel (vsub u v).
Proof. intros. unfold vsub. destruct (Nat.eqb _ _); discriminate. Qed.
Lemma nofuel_vadd : forall u v : vec F, nofuel (vadd u v).
Proof. intros. unfold vadd. destruct (Nat.eqb _ _); discriminate. Qed.
Lemma nofuel_mat_vec_chk : forall (A : mat F) v, nofuel (mat_vec_chk A v).
Proof. intros. unfold mat_vec_chk. destruct (Nat.eqb _ _); discriminate. Qed.
Lemma nofuel_residuals : forall f ms (l r : vec F), nofuel (evaluate_residuals f ms l r).
Proof.
  intros f ms. induction ms as [|m ms IH]; intros [|x l] [|y r]; cbn; try discriminate.
  apply nofuel_bind; [apply IH|discriminate].
Qed.
Lemma nofuel_normalize_rows : forall (L R : mat F) n l r ms, nofuel (normalize_rows n L R l r ms).
Proof.
  induction L as [|dl L IH]; intros [|dr R] n [|x l] [|y r] [|m ms]; cbn; try discriminate.
  apply nofuel_bind; [apply IH|discriminate].
Qed.
Lemma nofuel_step_limitations : forall (its : list (iterative F)) v r, nofuel (step_limitations its v r).
Proof.
  induction its as [|it its IH]; intros [|x v] [|y r]; cbn; try discriminate.
  apply nofuel_bind; [apply IH|discriminate].
Qed.

Context (He : forall s, nofuel (evaluate M s)).
Context (Hr : forall s, nofuel (get_residuals M s)).
Context (Hj : forall s, nofuel (get_jacobian M s)).

Lemma nofuel_perturbations : forall (its : list (iterative F)) v,
  (forall it x, In it its -> nofuel (it_compute_perturbation it x)) ->
  nofuel (compute_perturbations its v).
Proof.
  induction its as [|it its IH]; intros [|x v] H; cbn; try discriminate.
  apply nofuel_bind; [apply H; now left|]. intros d _.
  apply nofuel_bind; [apply IH; intros; apply H; now right|discriminate].
Qed.

Lemma nofuel_fd_columns : forall conf n mem xref rref pert todo i s,
  nofuel (finite_difference_columns M conf n mem xref rref pert todo i s).
Proof.
  intros conf n mem xref rref pert todo. induction todo as [|todo IH]; intros i s;
    cbn [finite_difference_columns]; [discriminate|].
  apply nofuel_bind; [apply nofuel_index|]. intros dx _.
  apply nofuel_bind; [apply nofuel_update_at|]. intros x _.
  apply nofuel_bind; [apply He|]. intros [s1 r] _.
  assert (Hk : nofuel (values <- get_residuals M s1 ;;
       res <- evaluate_update_residuals conf values ;;
       diff <- vsub res rref ;;
       guard_shape (Nat.eqb (length (vdiv diff dx)) n)
         ('(s2, rest) <-
            finite_difference_columns M conf n mem xref rref pert todo (S i)
              (set_memory M s1 mem) ;;
          Ret (s2, match rest with
                   | Ok cols => Ok (vdiv diff dx :: cols)
                   | Err e => Err e
                   end)))).
  { apply nofuel_bind; [apply Hr|]. intros v _.
    apply nofuel_bind; [apply nofuel_residuals|]. intros res _.
    apply nofuel_bind; [apply nofuel_vsub|]. intros diff _.
    apply nofuel_guard. apply nofuel_bind; [apply IH|]. intros [s2 rest] _. discriminate. }
  destruct r as [u|[e|e]]; [exact Hk|exact Hk|discriminate].
Qed.

Lemma nofuel_write : forall (rf : rootfinder) e, nofuel (write_log rf e).
Proof. intros. apply nofuel_bind; [apply nofuel_unwrap|discriminate]. Qed.
Lemma nofuel_when : forall (rf : rootfinder) k, nofuel k -> nofuel (when_debug rf k).
Proof. intros rf k H. unfold when_debug. destruct (rf_debug rf); [exact H|discriminate]. Qed.
Lemma nofuel_errors : forall (rf : rootfinder) s, nofuel (evaluate_errors M rf s).
Proof. intros. apply nofuel_bind; [apply Hr|]. intros v _. apply nofuel_residuals. Qed.
Lemma nofuel_iteration_log : forall (rf : rootfinder) s e, nofuel (iteration_to_log M rf s e).
Proof. intros. apply nofuel_bind; [apply Hr|]. intros v _. apply nofuel_write. Qed.
Lemma nofuel_damping_log : forall (rf : rootfinder) s e, nofuel (damping_to_log M rf s e).
Proof. intros. apply nofuel_bind; [apply Hr|]. intros v _. apply nofuel_write. Qed.

Definition its_total (rf : rootfinder) : Prop :=
  forall it x, In it (rf_iters_params rf) -> nofuel (it_compute_perturbation it x).

Lemma nofuel_compute_jac : forall (rf : rootfinder) s, its_total rf -> nofuel (compute_jac M rf s).
Proof.
  intros rf s Hi. unfold compute_jac. apply nofuel_bind; [|intros [[j s1] r] _; discriminate].
  destruct (jacobian_provided M s).
  - unfold evaluate_jacobian_from_analytical_function.
    apply nofuel_bind; [apply Hr|]. intros v _.
    apply nofuel_bind; [apply Hj|]. intros [s1 r] _. destruct r as [jv|e]; [|discriminate].
    apply nofuel_bind; [apply nofuel_normalize_rows|]. intros m _.
    destruct (update_jacobian_with_exact_value _ _). discriminate.
  - unfold evaluate_jacobian_from_finite_difference.
    apply nofuel_bind; [apply nofuel_perturbations; exact Hi|]. intros p _.
    apply nofuel_bind.
    + unfold compute_jacobian_from_finite_difference.
      apply nofuel_bind; [apply Hr|]. intros v _.
      apply nofuel_bind; [apply nofuel_residuals|]. intros res _.
      apply nofuel_bind; [apply nofuel_fd_columns|]. intros [s1 r] _. discriminate.
    + intros [s1 [m|e]] _; [|discriminate].
      destruct (update_jacobian_with_exact_value _ _). discriminate.
Qed.

Lemma nofuel_next : forall (rf : rootfinder) s, nofuel (compute_next_from_inv_jac M rf s).
Proof.
  intros rf s. unfold compute_next_from_inv_jac.
  apply nofuel_bind; [apply Hr|]. intros v _.
  apply nofuel_bind; [apply nofuel_residuals|]. intros res _.
  apply nofuel_bind; [apply nofuel_unwrap|]. intros inv _.
  apply nofuel_bind; [apply nofuel_mat_vec_chk|]. intros st _. apply nofuel_step_limitations.
Qed.

Lemma nofuel_approximate : forall (rf : rootfinder) m, nofuel (approximate_step rf m).
Proof.
  intros rf [|um|um]; cbn [approximate_step]; [discriminate| |].
  - apply nofuel_bind; [apply nofuel_unwrap|]. intros s _.
    apply nofuel_bind; [apply nofuel_unwrap|]. intros y _.
    apply nofuel_bind; [apply nofuel_unwrap|]. intros c _.
    apply nofuel_bind; [|intros [j ok] _; discriminate].
    unfold approximate_jacobian. apply nofuel_bind; [|intros n _; discriminate].
    destruct um; repeat (apply nofuel_bind;
      [first [apply nofuel_unwrap|apply nofuel_mat_vec_chk]|intros ? _]);
      apply nofuel_guard; discriminate.
  - apply nofuel_bind; [apply nofuel_unwrap|]. intros s _.
    apply nofuel_bind; [apply nofuel_unwrap|]. intros y _.
    apply nofuel_bind; [apply nofuel_unwrap|]. intros c _.
    apply nofuel_bind; [|intros j _; discriminate].
    unfold approximate_inv_jacobian. apply nofuel_bind; [apply nofuel_unwrap|]. intros inv _.
    apply nofuel_bind; [|intros n _; discriminate].
    destruct um; repeat (apply nofuel_bind;
      [first [apply nofuel_unwrap|apply nofuel_mat_vec_chk]|intros ? _]);
      apply nofuel_guard; discriminate.
Qed.

Lemma nofuel_step : forall (rf : rootfinder) s, its_total rf -> nofuel (compute_step M rf s).
Proof.
  intros rf s Hi. unfold compute_step. destruct (sp_resolution_method (rf_parameters rf)) as [|m].
  - unfold compute_newton_raphson_step.
    apply nofuel_bind; [now apply nofuel_compute_jac|]. intros [[rf1 s1] r] _.
    apply nofuel_bind; [apply nofuel_when, nofuel_write|]. intros rf2 _.
    destruct r; [|discriminate]. apply nofuel_bind; [apply nofuel_next|discriminate].
  - unfold compute_quasi_newton_step. apply nofuel_bind.
    + unfold evaluate_jacobian_quasi_newton_step.
      destruct (jm_compute_at_next (rf_jacobian rf)).
      * apply nofuel_bind; [now apply nofuel_compute_jac|]. intros [[rf1 s1] r] _.
        apply nofuel_bind; [apply nofuel_when, nofuel_write|]. discriminate.
      * apply nofuel_bind; [apply nofuel_approximate|]. intros [rf1 ok] _.
        destruct ok; [|discriminate].
        apply nofuel_bind; [apply nofuel_when, nofuel_write|]. discriminate.
    + intros [[rf1 s1] r] _. destruct r; [|discriminate].
      apply nofuel_bind; [apply nofuel_next|discriminate].
Qed.

Lemma nofuel_finish : forall (rf : rootfinder) s e c p, nofuel (finish_update M rf s e c p).
Proof.
  intros rf s e c p. unfold finish_update.
  apply nofuel_bind; [apply nofuel_errors|]. intros en _.
  apply nofuel_bind; [apply nofuel_when, nofuel_iteration_log|]. intros rf1 _.
  apply nofuel_bind.
  - destruct (sp_damping (rf_parameters rf1)); [|discriminate]. unfold damping.
    destruct (ngtb _ _); [|discriminate]. destruct (_ && _).
    + apply nofuel_bind; [apply nofuel_when, nofuel_write|]. discriminate.
    + apply nofuel_bind; [apply nofuel_vadd|]. intros d _.
      apply nofuel_bind; [apply He|]. intros [s1 r] _. destruct r; [|discriminate].
      apply nofuel_bind; [apply nofuel_errors|]. intros e2 _.
      apply nofuel_bind; [apply nofuel_when, nofuel_damping_log|]. discriminate.
  - intros [[rf2 s2] e2] _. apply nofuel_bind; [|discriminate].
    unfold store_steps.
    destruct (sp_resolution_method (rf_parameters rf2)) as [|[|u|u]]; try discriminate;
      (apply nofuel_bind; [apply nofuel_vsub|intros ds _; apply nofuel_bind; [apply nofuel_vsub|discriminate]]).
Qed.

Lemma nofuel_iteration : forall (rf : rootfinder) s, its_total rf -> nofuel (iteration M rf s).
Proof.
  intros rf s Hi. unfold iteration. apply nofuel_bind; [now apply nofuel_step|].
  intros [[rf1 s1] r] _. destruct r as [g|e]; [|discriminate].
  unfold update_model. apply nofuel_bind; [apply nofuel_errors|]. intros e _.
  apply nofuel_bind; [apply He|]. intros [s2 r] _.
  destruct r as [u|[x|x]]; [| |discriminate];
    (apply nofuel_bind; [apply nofuel_finish|]; intros [[rf2 s3] e2] _; discriminate).
Qed.

Lemma solve_nofuel : forall (rf : rootfinder) s, its_total rf -> nofuel (solve M rf s).
Proof.
  intros rf s Hi. unfold solve. apply nofuel_bind; [apply He|]. intros [s1 r] _.
  assert (Hs : nofuel (solve_from M rf s1)).
  { unfold solve_from. apply nofuel_bind; [apply nofuel_errors|]. intros e _.
    apply nofuel_bind.
    - apply nofuel_when. apply nofuel_bind.
      + unfold parameters_to_log. apply nofuel_bind; [apply nofuel_unwrap|]. intros l _.
        apply nofuel_bind; [apply nofuel_index|]. intros it _. apply nofuel_write.
      + intros rf1 _. apply nofuel_iteration_log.
    - intros rf1 Hrf1. apply nofuel_bind; [|intros [[rf2 s2] r2] _; discriminate].
      assert (Hc : same_but_log rf rf1).
      { eapply same_but_log_when; [|exact Hrf1]. intros rf2 H2. minv1 H2.
        eapply same_but_log_trans; [eapply same_but_log_params; eauto|].
        eapply same_but_log_iter; eauto. }
      apply same_but_log_fields in Hc. destruct Hc as (Hc & Hit & _).
      intros H. apply iterate_panic in H; [|lia].
      destruct H as (rf0 & s0 & Hc0 & H). apply (nofuel_iteration rf0 s0) in H; [exact H|].
      unfold its_total. replace (rf_iters_params rf0) with (rf_iters_params rf); [exact Hi|].
      destruct Hc0 as (_ & _ & Hx & _), Hc as (_ & _ & Hy & _). congruence. }
  destruct r as [u|[x|x]]; [exact Hs|exact Hs|discriminate].
Qed.

End Fuel.
