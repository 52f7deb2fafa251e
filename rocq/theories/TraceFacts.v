(** The calls made on the user model by each function of the solver. *)
From Verif Require Import Base Num Linalg Residuals Iteratives UserModel Jacobian Solver
  Tactics FlowFacts FlagFacts Trace.

Section TraceFacts.
Context {F : Type} {NF : Num F} {IF : Inverter F}.
Context {St EI EU : Type} (M : Model F St EI EU).
Notation rootfinder := (rootfinder F).
Notation T := (traced M).

Lemma traced_set : forall p x,
  set_iteratives T p x = (set_iteratives M (fst p) x, snd p ++ [ESet x]).
Proof. reflexivity. Qed.

Lemma traced_eval_inv : forall p p' r,
  evaluate T p = Ret (p', r) ->
  exists s', evaluate M (fst p) = Ret (s', r) /\
    p' = (s', snd p ++ [EEval (status_of r)]).
Proof.
  intros p p' r H. cbn [evaluate traced] in H. minv1 H. minv1 H. eauto.
Qed.

Lemma traced_jac_inv : forall p p' r,
  get_jacobian T p = Ret (p', r) ->
  exists s', get_jacobian M (fst p) = Ret (s', r) /\
    p' = (s', snd p ++ [EJac (status_of r)]).
Proof.
  intros p p' r H. cbn [get_jacobian traced] in H. minv1 H. minv1 H. eauto.
Qed.

(** set_iteratives followed by evaluate. *)
Lemma traced_set_eval_inv : forall s t x p' r,
  evaluate T (set_iteratives T (s, t) x) = Ret (p', r) ->
  exists s', evaluate M (set_iteratives M s x) = Ret (s', r) /\
    p' = (s', t ++ [ESet x; EEval (status_of r)]).
Proof.
  intros s t x p' r H. rewrite traced_set in H. apply traced_eval_inv in H.
  destruct H as (s' & H & ->). exists s'. split; [exact H|].
  cbn [snd]. rewrite <- app_assoc. reflexivity.
Qed.

Lemma fd_columns_trace : forall conf n mem xref rref pert todo i s t p' cols,
  finite_difference_columns T conf n mem xref rref pert todo i (s, t) = Ret (p', Ok cols) ->
  exists s' cs, p' = (s', t ++ fd_block mem cs) /\ length cs = todo /\
    Forall (fun c => snd c <> SUnusable) cs.
Proof.
  intros conf n mem xref rref pert todo. induction todo as [|todo IH];
    intros i s t p' cols H; cbn [finite_difference_columns] in H.
  - minv1 H. exists s, []. cbn. rewrite app_nil_r. auto.
  - minv1 H. minv1 H. minv1 H.
    apply traced_set_eval_inv in E1. destruct E1 as (s1 & _ & ->).
    assert (Hk : status_of b <> SUnusable /\
      (values <- get_residuals T (s1, t ++ [ESet x0; EEval (status_of b)]) ;;
       res <- evaluate_update_residuals conf values ;;
       diff <- vsub res rref ;;
       guard_shape (Nat.eqb (length (vdiv diff x)) n)
         ('(s2, rest) <-
            finite_difference_columns T conf n mem xref rref pert todo (S i)
              (set_memory T (s1, t ++ [ESet x0; EEval (status_of b)]) mem) ;;
          Ret (s2, match rest with
                   | Ok cols => Ok (vdiv diff x :: cols)
                   | Err e => Err e
                   end))) = Ret (p', Ok cols)).
    { destruct b as [u|[e|e]]; [split; [discriminate|exact H]..|discriminate H]. }
    clear H. destruct Hk as (Hk & H). minv1 H. minv1 H. minv1 H.
    unfold guard_shape in H. minv1 H. minv1 H. destruct b0; minv1 H.
    cbn [set_memory traced fst snd] in E5. apply IH in E5.
    destruct E5 as (s' & cs & -> & Hl & Hf).
    exists s', ((x0, status_of b) :: cs). split; [|split].
    + cbn. rewrite <- !app_assoc. reflexivity.
    + cbn. now rewrite Hl.
    + constructor; auto.
Qed.

(** The kind of a jacobian computed in the state [s]. *)
Definition computed_kind (s : St) : jac_kind :=
  if jacobian_provided M s then JAnalytic else JFinite (len_problem M s).

Lemma compute_jac_trace : forall rf s t rf' p',
  compute_jac T rf (s, t) = Ret (rf', p', Ok tt) ->
  exists s' b, p' = (s', t ++ b) /\
    jac_block (computed_kind s) b.
Proof.
  intros rf s t rf' p' H. apply compute_jac_inv in H.
  destruct H as (j & r0 & -> & H & Hr).
  cbn [jacobian_provided traced fst] in H.
  unfold computed_kind. destruct (jacobian_provided M s).
  - unfold evaluate_jacobian_from_analytical_function in H.
    minv1 H. minv1 H. apply traced_jac_inv in E0. destruct E0 as (s' & _ & ->).
    cbn [snd] in H. destruct b.
    + minv1 H. minv1 H. minv1 H.
      exists s', [EJac (@status_of (jacobian_values F) EI EU (Ok a))]. split; [reflexivity|constructor].
    + minv1 H. exists s', [EJac (@status_of (jacobian_values F) EI EU (Err e))]. split; [reflexivity|constructor].
  - unfold evaluate_jacobian_from_finite_difference in H.
    minv1 H. minv1 H. rename E0 into Ec. unfold compute_jacobian_from_finite_difference in Ec.
    minv1 Ec. minv1 Ec. minv1 Ec. minv1 Ec.
    cbn [len_problem traced fst get_memory get_iteratives] in E2.
    destruct b0.
    + apply fd_columns_trace in E2. destruct E2 as (s' & cs & -> & Hl & Hf).
      minv1 H. minv1 H.
      exists s', (fd_block (get_memory M s) cs). split; [reflexivity|].
      rewrite <- Hl. constructor; auto.
    + apply fd_columns_err in E2. destruct E2 as (x2 & ->).
      minv1 H. discriminate Hr.
Qed.

(** The calls of a completed iteration. *)
Lemma compute_step_trace : forall rf s t rf' p' g,
  compute_step T rf (s, t) = Ret (rf', p', Ok g) ->
  exists s' j b, p' = (s', t ++ b) /\ jac_block j b /\
    j = if (negb (is_quasi_newton (sp_resolution_method (rf_parameters rf)))
            || jm_compute_at_next (rf_jacobian rf))%bool
        then computed_kind s
        else JReused.
Proof.
  intros rf s t rf' p' g H. unfold compute_step in H.
  destruct (sp_resolution_method (rf_parameters rf)) as [|m]; cbn [is_quasi_newton negb orb].
  - unfold compute_newton_raphson_step in H. minv1 H. minv1 H. destruct b as [[]|].
    + apply compute_jac_trace in E. destruct E as (s' & b & -> & Hb).
      minv1 H. minv1 H. eauto 10.
    + discriminate H.
  - unfold compute_quasi_newton_step in H. minv1 H.
    unfold evaluate_jacobian_quasi_newton_step in E.
    destruct (jm_compute_at_next (rf_jacobian rf)).
    + minv1 E. minv1 E. destruct b1 as [[]|]; minv1 E.
      * minv1 H. minv1 H. apply compute_jac_trace in E0.
        destruct E0 as (s' & b & -> & Hb). eauto 10.
      * discriminate H.
    + minv1 E. destruct b1.
      * minv1 E. minv1 E. minv1 H. minv1 H. exists s, JReused, [].
        rewrite app_nil_r. repeat split; constructor.
      * minv1 E. discriminate H.
Qed.

Lemma finish_update_trace : forall rf s t e cur prop rf' p' en,
  finish_update T rf (s, t) e cur prop = Ret (rf', p', en) ->
  p' = (s, t) \/
  (sp_damping (rf_parameters rf) = true /\
   exists s' d, p' = (s', t ++ [ESet d; EEval SOk])).
Proof.
  intros rf s t e cur prop rf' p' en H. apply finish_update_inv in H.
  destruct H as (_ & _ & _ & _ & [->|(Hd & d & u & _ & H)]); [auto|].
  right. split; [exact Hd|]. apply traced_set_eval_inv in H.
  destruct H as (s' & _ & ->). exists s', d. reflexivity.
Qed.

Lemma iteration_trace : forall rf s t rf' p' e,
  iteration T rf (s, t) = Ret (rf', p', Ok e) ->
  exists s' j k d b, p' = (s', t ++ b) /\ iter_block j k d b /\
    (d = true -> sp_damping (rf_parameters rf) = true) /\
    rf_valid_last rf' = (match k with SOk => true | _ => false end) /\
    j = if (negb (is_quasi_newton (sp_resolution_method (rf_parameters rf)))
            || jm_compute_at_next (rf_jacobian rf))%bool
        then computed_kind s
        else JReused.
Proof.
  intros rf s t rf' p' e H. apply iteration_inv in H.
  destruct H as (rf1 & s1 & r1 & Hs & Hu).
  destruct r1 as [g|]; [|destruct Hu as (_ & _ & Hu); discriminate Hu].
  assert (Hs2 := Hs). apply compute_step_inv in Hs2. destruct Hs2 as (Hs2 & _).
  apply same_but_jac_fields in Hs2. destruct Hs2 as (Hc & _).
  assert (Hp : rf_parameters rf1 = rf_parameters rf) by apply Hc. clear Hc.
  apply compute_step_trace in Hs. destruct Hs as (s2 & j & b & -> & Hb & Hj).
  apply update_model_inv in Hu.
  destruct Hu as (e1 & p1 & r2 & _ & Hev & [(x & _ & _ & _ & Hr)|(en & Hr & Hnu & Hf)]);
    [discriminate Hr|]. injection Hr as <-.
  apply traced_set_eval_inv in Hev. destruct Hev as (s3 & _ & ->).
  assert (Hk : status_of r2 <> SUnusable).
  { destruct r2 as [|[x|x]]; try discriminate. elim (Hnu x). reflexivity. }
  assert (Hv : rf_valid_last rf' = match status_of r2 with SOk => true | _ => false end).
  { apply finish_update_inv in Hf. destruct Hf as (_ & _ & Hv & _). rewrite Hv.
    destruct r2 as [|[]]; reflexivity. }
  apply finish_update_trace in Hf. cbn [rf_parameters set_valid] in Hf.
  destruct Hf as [->|(Hd & s' & d & ->)].
  - exists s3, j, (status_of r2), false, (b ++ [ESet g; EEval (status_of r2)]).
    split; [now rewrite app_assoc|]. split; [constructor; auto|].
    split; [discriminate|]. split; [exact Hv|exact Hj].
  - exists s', j, (status_of r2), true, (b ++ [ESet g; EEval (status_of r2); ESet d; EEval SOk]).
    split; [now rewrite <- !app_assoc|]. split; [constructor; auto|].
    split; [congruence|]. split; [exact Hv|exact Hj].
Qed.

(** When the next jacobian must be recomputed after a completed iteration. *)
Lemma iteration_force : forall rf p rf' p' e,
  iteration T rf p = Ret (rf', p', Ok e) ->
  jm_compute_at_next (rf_jacobian rf') = true ->
  sp_damping (rf_parameters rf) = true /\
  is_quasi_newton (sp_resolution_method (rf_parameters rf)) = true.
Proof.
  intros rf p rf' p' e H Ht. apply iteration_flags in H.
  destruct H as (rf1 & s1 & g & s2 & r2 & e0 & e1 & _ & _ & _ & _ & _ & H).
  rewrite Ht in H. symmetry in H.
  apply andb_prop in H. destruct H as (H & _). apply andb_prop in H. destruct H as (H & Hq).
  apply andb_prop in H. destruct H as (H & _). auto.
Qed.

(** The calls of a sequence of iterations. *)
Definition run_inv (rf0 : rootfinder) (t0 : list (event F))
  (rf : rootfinder) (p : St * list (event F)) : Prop :=
  same_config rf0 rf /\
  exists l t, snd p = t0 ++ t /\ iter_blocks l t /\
    rf_iter rf = rf_iter rf0 + length l /\
    Forall (fun x => sum_damped x = true -> sp_damping (rf_parameters rf0) = true) l /\
    Forall (fun x =>
      (sum_jac x = JReused /\
       is_quasi_newton (sp_resolution_method (rf_parameters rf0)) = true) \/
      exists s, sum_jac x = computed_kind s) l /\
    match rev l with
    | [] => rf_valid_last rf = rf_valid_last rf0
    | x :: _ => rf_valid_last rf = match sum_status x with SOk => true | _ => false end
    end /\
    (is_quasi_newton (sp_resolution_method (rf_parameters rf0)) = true ->
     sp_damping (rf_parameters rf0) = false ->
     match l with
     | [] => jm_compute_at_next (rf_jacobian rf) = jm_compute_at_next (rf_jacobian rf0)
     | x :: l' =>
         jm_compute_at_next (rf_jacobian rf) = false /\
         (if jm_compute_at_next (rf_jacobian rf0)
          then exists s, sum_jac x = computed_kind s
          else sum_jac x = JReused) /\
         Forall (fun y => sum_jac y = JReused) l'
     end).

Lemma run_inv_step : forall rf0 t0 rf p me rf1 p1 e,
  run_inv rf0 t0 rf p -> continues rf me = true ->
  iteration T rf p = Ret (rf1, p1, Ok e) -> run_inv rf0 t0 rf1 p1.
Proof.
  intros rf0 t0 rf [s t] me rf1 p1 e (Hc & l & t1 & Ht & Hb & Hi & Hd & Hj & Hv & Hq) _ H.
  assert (Hp : rf_parameters rf = rf_parameters rf0) by apply Hc.
  assert (Hf := iteration_force _ _ _ _ _ H).
  assert (H2 := H). apply iteration_fields in H2. destruct H2 as (Hc2 & Hi2 & _).
  apply iteration_trace in H.
  destruct H as (s' & j & k & d & b & -> & Hb2 & Hd2 & Hv2 & Hj2).
  split; [eapply same_config_trans; eauto|].
  exists (l ++ [mkIterSummary j k d]), (t1 ++ b). cbn [snd] in *. subst t.
  rewrite Hp in *.
  split; [now rewrite app_assoc|]. split; [constructor; auto|].
  split; [rewrite Hi2, Hi, app_length; cbn; lia|].
  split; [apply Forall_app; split; [assumption|]; constructor; [|constructor]; exact Hd2|].
  split.
  { apply Forall_app; split; [assumption|]. constructor; [|constructor]. cbn [sum_jac].
    destruct (is_quasi_newton _); cbn [negb orb] in Hj2; [|right; eauto].
    destruct (jm_compute_at_next _); [right; eauto|left; auto]. }
  split; [rewrite rev_app_distr; cbn; exact Hv2|].
  intros Hqn Hnd. specialize (Hq Hqn Hnd).
  assert (Hf1 : jm_compute_at_next (rf_jacobian rf1) = false).
  { destruct (jm_compute_at_next (rf_jacobian rf1)); [|reflexivity].
    destruct Hf as (Hf & _); [reflexivity|]. congruence. }
  rewrite Hqn in Hj2. cbn [negb orb] in Hj2.
  destruct l as [|x l]; cbn [app].
  - rewrite Hq in Hj2. split; [exact Hf1|]. split; [|constructor]. cbn [sum_jac].
    destruct (jm_compute_at_next (rf_jacobian rf0)); eauto.
  - destruct Hq as (Hq1 & Hq2 & Hq3). split; [exact Hf1|]. split; [exact Hq2|].
    apply Forall_app. split; [exact Hq3|]. constructor; [|constructor]. cbn [sum_jac].
    rewrite Hq1 in Hj2. exact Hj2.
Qed.

Lemma iteration_not_verdict : forall rf p rf' p' (x : solver_error EI EU),
  iteration T rf p = Ret (rf', p', Err x) ->
  x <> NonConvergenceError /\ x <> FinalEvaluationError.
Proof.
  intros rf p rf' p' x H. apply iteration_inv in H. destruct H as (rf3 & s3 & r3 & _ & H).
  destruct r3.
  - apply update_model_inv in H.
    destruct H as (_ & _ & _ & _ & _ & [(y & _ & _ & _ & Hy)|(en & Hy & _)]);
      [injection Hy as ->; split; discriminate|discriminate Hy].
  - destruct H as (_ & _ & Hy). injection Hy as ->. split; discriminate.
Qed.

(** Calls of a whole [solve] that reaches a verdict. *)
Lemma solve_trace : forall rf s t rf' p' r,
  solve T rf (s, t) = Ret (rf', p', r) ->
  r = Ok tt \/ r = Err NonConvergenceError \/ r = Err FinalEvaluationError ->
  exists k, k <> SUnusable /\
    run_inv rf (t ++ [ESet (rf_initial_guess rf); EEval k]) rf' p'.
Proof.
  intros rf s t rf' p' r H Hr. apply solve_inv in H.
  destruct H as (p1 & r1 & Hev & [(x & -> & -> & -> & ->)|(Hnu & H)]).
  { destruct Hr as [Hr|[Hr|Hr]]; discriminate Hr. }
  apply traced_set_eval_inv in Hev. destruct Hev as (s1 & _ & ->).
  set (t1 := t ++ [ESet (rf_initial_guess rf); EEval (status_of r1)]) in *.
  apply solve_from_inv in H. destruct H as (e & rf1 & r2 & _ & Hl & Hit & ->).
  apply same_but_log_fields in Hl. destruct Hl as (Hc & Hi & Hj & Hv & _).
  assert (H0 : run_inv rf t1 rf1 (s1, t1)).
  { split; [exact Hc|]. exists [], []. cbn [snd].
    split; [now rewrite app_nil_r|]. split; [constructor|].
    split; [cbn; lia|]. split; [constructor|]. split; [constructor|].
    split; [cbn; exact Hv|]. intros _ _. now rewrite Hj. }
  apply (iterate_ind T (fun rfx px _ => run_inv rf t1 rfx px)) in Hit; [|
    intros; eapply run_inv_step; eauto | exact H0].
  exists (status_of r1).
  split. { destruct r1 as [|[x|x]]; try discriminate. elim (Hnu x). reflexivity. }
  destruct r2 as [me|x]; [apply Hit|].
  destruct Hit as (rf2 & s2 & _ & Hri & _ & Hx). exfalso.
  apply iteration_not_verdict in Hx. destruct Hx as (H1 & H2).
  destruct Hr as [Hr|[Hr|Hr]]; congruence.
Qed.

End TraceFacts.
