(** What the verdict of [solve] means: C01, C02, C05, C43, C45, C58, C59. *)
From Coq Require Import Reals Lra.
From Flocq Require Import Core BinarySingleNaN.
From Verif Require Import Base Num Linalg Residuals Iteratives UserModel Jacobian Solver
  F64 F64Facts F64Arith FlowFacts Spec Fresh ResidualFacts VerdictFacts Samples.
Open Scope nat_scope.

(** *** C01 *)

(** A successful resolution leaves the model in a state whose stopping residuals,
    when none is NaN, are all at most the tolerance. *)
Theorem C01_success_within_tolerance :
  forall (IF : Inverter f64) St EI EU (M : Model f64 St EI EU) rf s rf' s',
  solve M rf s = Ret (rf', s', Ok tt) ->
  is_nan (sp_tolerance (rf_parameters rf)) = false ->
  exists v, get_residuals M s' = Ret v /\
    described (stopping_criterias (rf_residuals_config rf)) v /\
    ((forall r, stopping_residual (stopping_criterias (rf_residuals_config rf)) v r ->
        is_nan r = false) ->
     forall r, stopping_residual (stopping_criterias (rf_residuals_config rf)) v r ->
        nleb r (sp_tolerance (rf_parameters rf)) = true).
Proof.
  intros IF St EI EU M rf s rf' s' H Ht. apply verdict_state in H; [|left; reflexivity].
  destruct H as (v & e & Hv & He & Hc & _ & _ & _ & Hr). exists v. split; [exact Hv|].
  split; [apply stopping_vector in He; apply He|]. intros Hnn.
  apply (stopping_max _ _ _ (sp_tolerance (rf_parameters rf))) in He. destruct He as (_ & He).
  apply He; auto. destruct (ngtb (amax e) _); [discriminate Hr|reflexivity].
Qed.
Print Assumptions C01_success_within_tolerance.

(** A run meeting the hypotheses, with finite final residuals. *)
Example C01_case :
  check_run (solve (model_from_function sq2) (sq2_fd 50 NewtonRaphson false) (user_model_new 1))
    (fun rf s r => is_ok r && Nat.eqb (rf_iter rf) 4
       && forallb (fun x => is_finite x) (um_left s)) = true.
Proof. vm_compute. reflexivity. Qed.

(** *** C02 *)

(** The full statement. *)
Definition C02_statement : Prop :=
  forall (IF : Inverter f64) St EI EU (M : Model f64 St EI EU) rf s rf' s' v,
  fresh rf ->
  is_nan (sp_tolerance (rf_parameters rf)) = false ->
  solve M rf s = Ret (rf', s', Ok tt) ->
  get_residuals M s' = Ret v ->
  forall r, stopping_residual (stopping_criterias (rf_residuals_config rf)) v r ->
    is_nan r = false /\ nleb r (sp_tolerance (rf_parameters rf)) = true.

(** Witness: the residuals are [5; NaN; 0] everywhere; [solve] succeeds at once. *)
Definition C02_residuals : vec f64 := [Fz 5; nnan; Fz 0].
Definition C02_rf : rootfinder f64 :=
  sample_rf (params6 3 50 NewtonRaphson false) [Fz 1; Fz 1; Fz 1] (fd_its 3) (abs_conf 3).

Lemma sample_fresh : forall p guess its conf,
  length guess = sp_problem_size p -> length its = sp_problem_size p ->
  length (stopping_criterias conf) = sp_problem_size p ->
  fresh (@sample_rf f64 p guess its conf).
Proof.
  intros p guess its conf Hg Hi Hc. exists p, guess, its, conf, (sample_rf p guess its conf).
  split; [|left; reflexivity]. unfold rootfinder_new, residuals_config_len.
  rewrite Hg, Hi, Hc, Nat.eqb_refl. reflexivity.
Qed.

Lemma C02_witness :
  exists rf' s', solve (model_from_function (constant C02_residuals)) C02_rf (user_model_new 3)
                   = Ret (rf', s', Ok tt) /\
    get_residuals (model_from_function (constant C02_residuals)) s'
      = Ret (mkResidualsValues C02_residuals (vzeros 3)).
Proof. eexists. eexists. split; reflexivity. Qed.

Theorem C02_nan_never_success_refuted :
  ~ C02_statement /\
  exists rf' s' v,
    solve (model_from_function (constant C02_residuals)) C02_rf (user_model_new 3)
      = Ret (rf', s', Ok tt) /\
    get_residuals (model_from_function (constant C02_residuals)) s' = Ret v /\
    (exists r, stopping_residual (repeat Abs 3) v r /\ is_nan r = true) /\
    (exists r, stopping_residual (repeat Abs 3) v r /\
       nltb (sp_tolerance (rf_parameters C02_rf)) r = true).
Proof.
  assert (Hn : stopping_residual (repeat Abs 3) (mkResidualsValues C02_residuals (vzeros 3))
                 (nnan : f64)).
  { exists 1, Abs, nnan, n0. split; [repeat split|reflexivity]. }
  split.
  - intros H. destruct C02_witness as (rf' & s' & H1 & H2).
    refine (_ (H _ _ _ _ _ _ _ _ _ _ _ _ H1 H2 _ Hn)).
    + intros (Hx & _). discriminate Hx.
    + apply sample_fresh; reflexivity.
    + vm_compute. reflexivity.
  - destruct C02_witness as (rf' & s' & H1 & H2). exists rf', s', (mkResidualsValues C02_residuals (vzeros 3)).
    split; [exact H1|]. split; [exact H2|]. split.
    + exists nnan. split; [exact Hn|reflexivity].
    + exists (nabs (residual Abs (Fz 5) n0)). split; [|vm_compute; reflexivity].
      exists 0, Abs, (Fz 5), n0. split; [repeat split|reflexivity].
Qed.
Print Assumptions C02_nan_never_success_refuted.

(** *** C05 *)

(** [NonConvergenceError]: the budget is spent and some stopping residual is
    above the tolerance (unless the tolerance is negative). Conversely, a run
    that ends with a verdict and a stopping residual above the tolerance, none
    being NaN, is reported as [NonConvergenceError]. *)
Theorem C05_nonconvergence :
  forall (IF : Inverter f64) St EI EU (M : Model f64 St EI EU) rf s rf' s',
  solve M rf s = Ret (rf', s', Err NonConvergenceError) ->
  rf_iter rf' = Nat.max (rf_iter rf) (sp_max_iter (rf_parameters rf)) /\
  exists v, get_residuals M s' = Ret v /\
    ((exists r, stopping_residual (stopping_criterias (rf_residuals_config rf)) v r /\
        nltb (sp_tolerance (rf_parameters rf)) r = true) \/
     nltb (sp_tolerance (rf_parameters rf)) n0 = true).
Proof.
  intros IF St EI EU M rf s rf' s' H. apply verdict_state in H; [|right; left; reflexivity].
  destruct H as (v & e & Hv & He & Hc & Hle & Hi & Hend & Hr).
  apply (stopping_max _ _ _ (sp_tolerance (rf_parameters rf))) in He. destruct He as (He & _).
  destruct (ngtb (amax e) _); [|destruct (rf_valid_last rf'); discriminate Hr].
  destruct Hend as [Hend|Hend]; [discriminate Hend|].
  split; [lia|]. exists v. split; [exact Hv|]. apply He. reflexivity.
Qed.
Print Assumptions C05_nonconvergence.

Theorem C05_nonconvergence_converse :
  forall (IF : Inverter f64) St EI EU (M : Model f64 St EI EU) rf s rf' s' r v,
  solve M rf s = Ret (rf', s', r) ->
  r = Ok tt \/ r = Err NonConvergenceError \/ r = Err FinalEvaluationError ->
  get_residuals M s' = Ret v ->
  (forall x, stopping_residual (stopping_criterias (rf_residuals_config rf)) v x -> is_nan x = false) ->
  (exists x, stopping_residual (stopping_criterias (rf_residuals_config rf)) v x /\
     nltb (sp_tolerance (rf_parameters rf)) x = true) ->
  r = Err NonConvergenceError.
Proof.
  intros IF St EI EU M rf s rf' s' r v H Hr Hv Hnn (x & Hx & Hgt).
  apply verdict_state in H; [|exact Hr].
  destruct H as (v' & e & Hv' & He & Hc & Hle & Hi & Hend & Hr').
  rewrite Hv in Hv'. injection Hv' as <-.
  apply (stopping_max _ _ _ (sp_tolerance (rf_parameters rf))) in He. destruct He as (_ & He).
  destruct (ngtb (amax e) _); [exact Hr'|].
  assert (Ht := Hgt). apply ltb_true_inv in Ht. destruct Ht as (Ht & Hx' & Hlt).
  specialize (He Ht Hnn eq_refl x Hx). apply leb_true_inv in He. exfalso.
  destruct He as (_ & _ & He). lra.
Qed.
Print Assumptions C05_nonconvergence_converse.

(** A run of two iterations that does not converge. *)
Example C05_case :
  check_run (solve (model_from_function sq2) (sq2_fd 2 NewtonRaphson false) (user_model_new 1))
    (fun rf s r => is_nonconv r && Nat.eqb (rf_iter rf) 2
       && forallb (fun x => is_finite x) (um_left s)) = true.
Proof. vm_compute. reflexivity. Qed.

(** *** C43 *)

(** The entries of the vector compared with the tolerance are magnitudes: NaN
    or at least 0. With the same method for both uses, they are the absolute
    values of the residuals used in the update. *)
Theorem C43_stopping_residuals_are_magnitudes :
  forall c (v : residuals_values f64) e,
  evaluate_stopping_residuals c v = Ret e ->
  Forall (fun r => is_nan r = true \/ nleb n0 r = true) e.
Proof.
  intros c v e H. apply stopping_vector in H. destruct H as (_ & _ & _ & H).
  apply Forall_forall. intros r Hr. destruct (H r Hr) as [Hs|(_ & ->)].
  - destruct (is_nan r) eqn:E; [auto|]. right. rewrite <- (stopping_abs _ _ _ Hs).
    apply leb_key; [reflexivity|now rewrite abs_nan|]. apply abs_ge_0.
  - right. reflexivity.
Qed.
Print Assumptions C43_stopping_residuals_are_magnitudes.

Lemma map_repeat : forall A B (f : A -> B) a n, map f (repeat a n) = repeat (f a) n.
Proof. induction n; cbn; congruence. Qed.

Theorem C43_same_method :
  forall c (v : residuals_values f64) es eu,
  stopping_criterias c = update_methods c ->
  evaluate_stopping_residuals c v = Ret es ->
  evaluate_update_residuals c v = Ret eu ->
  es = map nabs eu.
Proof.
  intros c v es eu Hc Hs Hu. unfold evaluate_stopping_residuals in Hs.
  unfold evaluate_update_residuals in Hu. rewrite Hc in Hs. clear Hc.
  revert Hs Hu. generalize (rv_left v) (rv_right v). revert es eu.
  induction (update_methods c) as [|m ms IH]; intros es eu l r Hs Hu;
    cbn [evaluate_residuals] in Hs, Hu.
  - injection Hs as <-. injection Hu as <-. unfold vzeros. rewrite map_repeat. reflexivity.
  - destruct l as [|x l], r as [|y r]; try discriminate.
    destruct (evaluate_residuals (fun x y m => nabs (normalization x y m)) ms l r) eqn:E1; [|discriminate].
    destruct (evaluate_residuals normalization ms l r) eqn:E2; [|discriminate].
    cbn [bind] in Hs, Hu. injection Hs as <-. injection Hu as <-. cbn [map]. f_equal. eauto.
Qed.
Print Assumptions C43_same_method.

(** Swapping the two members of the equations changes no stopping residual. *)
Lemma residual_swap : forall m (x y : f64), nabs (residual m x y) = nabs (residual m y x).
Proof.
  intros [] x y; unfold residual.
  - apply sub_swap_abs.
  - rewrite (add_comm y x). apply div_abs_num, sub_swap_abs.
  - rewrite (add_comm y x). apply div_abs_num, sub_swap_abs.
Qed.
Theorem C43_swap_members :
  forall c (l r : vec f64), length l = length r ->
  evaluate_stopping_residuals c (mkResidualsValues l r)
  = evaluate_stopping_residuals c (mkResidualsValues r l).
Proof.
  intros c. unfold evaluate_stopping_residuals. cbn [rv_left rv_right].
  induction (stopping_criterias c) as [|m ms IH]; intros [|x l] [|y r] H; try discriminate;
    cbn [evaluate_residuals]; try reflexivity.
  - now rewrite H.
  - injection H as H. rewrite (IH l r H). rewrite !normalization_spec, residual_swap. reflexivity.
Qed.
Print Assumptions C43_swap_members.

Example C43_case :
  exists e, evaluate_stopping_residuals (mkResidualsConfig [Abs; Rel; Adapt] [Abs; Rel; Adapt])
    (mkResidualsValues [Fz 1; Fz 2; Fz (-3)] [Fz 3; Fz 6; Fz (-9)]) = Ret e /\
    forallb (fun x => nltb n0 x) e = true.
Proof. eexists. split; [reflexivity|]. vm_compute. reflexivity. Qed.

(** *** C45 *)

(** The full statement: every equation of the model counts. *)
Definition C45_statement : Prop :=
  forall (IF : Inverter f64) St EI EU (M : Model f64 St EI EU) rf s rf' s' v,
  fresh rf ->
  is_nan (sp_tolerance (rf_parameters rf)) = false ->
  solve M rf s = Ret (rf', s', Ok tt) ->
  get_residuals M s' = Ret v ->
  (forall i m x y, nth_error (rv_left v) i = Some x -> nth_error (rv_right v) i = Some y ->
     is_nan (residual m x y) = false) ->
  forall i x y, nth_error (rv_left v) i = Some x -> nth_error (rv_right v) i = Some y ->
    exists m, nleb (nabs (residual m x y)) (sp_tolerance (rf_parameters rf)) = true.

(** Proved when the configuration describes all the equations. *)
Theorem C45_described_equations_count :
  forall (IF : Inverter f64) St EI EU (M : Model f64 St EI EU) rf s rf' s' v,
  is_nan (sp_tolerance (rf_parameters rf)) = false ->
  solve M rf s = Ret (rf', s', Ok tt) ->
  get_residuals M s' = Ret v ->
  (forall i m x y, nth_error (rv_left v) i = Some x -> nth_error (rv_right v) i = Some y ->
     nth_error (stopping_criterias (rf_residuals_config rf)) i = Some m ->
     is_nan (residual m x y) = false) ->
  length (rv_left v) = length (stopping_criterias (rf_residuals_config rf)) ->
  forall i x y, nth_error (rv_left v) i = Some x -> nth_error (rv_right v) i = Some y ->
    exists m, nth_error (stopping_criterias (rf_residuals_config rf)) i = Some m /\
      nleb (nabs (residual m x y)) (sp_tolerance (rf_parameters rf)) = true.
Proof.
  intros IF St EI EU M rf s rf' s' v Ht H Hv Hnn Hlen i x y Hx Hy.
  destruct (C01_success_within_tolerance _ _ _ _ _ _ _ _ _ H Ht) as (v' & Hv' & _ & Hall).
  rewrite Hv in Hv'. injection Hv' as <-.
  destruct (nth_error (stopping_criterias (rf_residuals_config rf)) i) as [m|] eqn:Em.
  - exists m. split; [reflexivity|]. apply Hall.
    + intros r (j & m' & x' & y' & (H1 & H2 & H3) & ->).
      change (isnan (nabs (residual m' x' y')) = false). rewrite abs_nan. eauto.
    + exists i, m, x, y. split; [repeat split|reflexivity]; auto.
  - apply nth_error_None in Em. rewrite <- Hlen in Em. apply nth_error_None in Em. congruence.
Qed.
Print Assumptions C45_described_equations_count.

(** False when the model returns more equations than the configuration
    describes: here residuals [0; 5] with one configured equation. *)
Theorem C45_every_equation_counts_refuted : ~ C45_statement.
Proof.
  intros H.
  set (tiny := ndec 1 1000000000 : f64).
  set (M := model_from_function (constant [tiny; Fz 5])).
  set (rf := sample_rf (params6 1 50 NewtonRaphson false) [Fz 1] (fd_its 1) (abs_conf 1)).
  set (s' := mkUserModel [Fz 1] [tiny; Fz 5] (vzeros 2) 2).
  assert (H1 : exists rf', solve M rf (user_model_new 2) = Ret (rf', s', Ok tt))
    by (eexists; reflexivity).
  destruct H1 as (rf' & H1).
  assert (Hf : fresh rf) by (apply sample_fresh; reflexivity).
  destruct (H _ _ _ _ M rf _ rf' s' (mkResidualsValues [tiny; Fz 5] (vzeros 2)) Hf eq_refl H1 eq_refl)
    with (i := 1) (x := Fz 5) (y := Fz 0) as (m & Hm); try reflexivity.
  - intros [|[|[|i]]] m x y Hx Hy; try discriminate Hx; injection Hx as <-; injection Hy as <-;
      destruct m; vm_compute; reflexivity.
  - destruct m; vm_compute in Hm; discriminate Hm.
Qed.
Print Assumptions C45_every_equation_counts_refuted.

Example C45_case :
  check_run (solve (model_from_function sq2)
      (sample_rf (params6 2 50 NewtonRaphson false) [Fz 1; Fz 3] (fd_its 2) (abs_conf 2))
      (user_model_new 2))
    (fun rf s r => is_ok r && Nat.eqb (length (um_left s)) 2 && Nat.ltb 0 (rf_iter rf)) = true.
Proof. vm_compute. reflexivity. Qed.

(** *** C58 *)

(** The full statement: with a NaN tolerance, success still means that the
    residuals are not large. *)
Definition C58_statement : Prop :=
  forall (IF : Inverter f64) St EI EU (M : Model f64 St EI EU) rf s rf' s' v,
  fresh rf ->
  is_nan (sp_tolerance (rf_parameters rf)) = true ->
  solve M rf s = Ret (rf', s', Ok tt) ->
  get_residuals M s' = Ret v ->
  forall r, stopping_residual (stopping_criterias (rf_residuals_config rf)) v r ->
    nleb r (Fz 1) = true.

Theorem C58_nan_tolerance_refuted : ~ C58_statement.
Proof.
  intros H.
  set (M := model_from_function (constant [Fz 5])).
  set (rf := sample_rf (mkSolverParameters 1 nnan 50 NewtonRaphson false) [Fz 1] (fd_its 1) (abs_conf 1)).
  set (s' := mkUserModel [Fz 1] [Fz 5] (vzeros 1) 1).
  assert (H1 : exists rf', solve M rf (user_model_new 1) = Ret (rf', s', Ok tt))
    by (eexists; reflexivity).
  destruct H1 as (rf' & H1).
  assert (Hf : fresh rf) by (apply sample_fresh; reflexivity).
  assert (H2 := H _ _ _ _ M rf _ rf' s' (mkResidualsValues [Fz 5] (vzeros 1)) Hf eq_refl H1 eq_refl
     (nabs (residual Abs (Fz 5) (Fz 0)))).
  assert (Hs : stopping_residual (repeat Abs 1) (mkResidualsValues [Fz 5] (vzeros 1))
                 (nabs (residual Abs (Fz 5) (Fz 0)))).
  { exists 0, Abs, (Fz 5), (Fz 0). split; [repeat split|reflexivity]. }
  specialize (H2 Hs). vm_compute in H2. discriminate H2.
Qed.
Print Assumptions C58_nan_tolerance_refuted.

(** What a NaN tolerance does: no iteration is made, and no run is ever
    reported as not converged. *)
Theorem C58_nan_tolerance_disables_the_solver :
  forall (IF : Inverter f64) St EI EU (M : Model f64 St EI EU) rf s rf' s' r,
  is_nan (sp_tolerance (rf_parameters rf)) = true ->
  solve M rf s = Ret (rf', s', r) ->
  rf_iter rf' = rf_iter rf /\
  ((exists e, evaluate M (set_iteratives M s (rf_initial_guess rf))
                = Ret (s', Err (UnusableValuesError e)) /\
      r = Err (ModelInitialEvaluationError (show_unusable M e))) \/
   r = if rf_valid_last rf then Ok tt else Err FinalEvaluationError).
Proof.
  intros IF St EI EU M rf s rf' s' r Ht H.
  apply solve_inv in H. destruct H as (s1 & r1 & He & [(x & -> & -> & -> & ->)|(_ & H)]).
  - split; [reflexivity|]. left. eauto.
  - apply solve_from_inv in H. destruct H as (e & rf1 & r2 & _ & Hl & Hit & ->).
    apply same_but_log_fields in Hl. destruct Hl as ((Hp & _) & Hi & _ & Hv & _).
    cbn [iterate] in Hit. rewrite Hp in Hit.
    assert (Hn : forall z, ngtb z (sp_tolerance (rf_parameters rf)) = false)
      by (intros z; apply ltb_nan; left; exact Ht).
    rewrite Hn in Hit. cbn [andb] in Hit. injection Hit as <- <- <-.
    split; [exact Hi|]. right. unfold verdict. now rewrite Hp, Hn, Hv.
Qed.
Print Assumptions C58_nan_tolerance_disables_the_solver.

(** *** C59 *)

(** The number compared with the tolerance is the largest stopping residual
    when none is NaN; it is 0 for an empty vector. *)
Theorem C59_max_norm :
  forall c (v : residuals_values f64) e,
  evaluate_stopping_residuals c v = Ret e ->
  (forall r, stopping_residual (stopping_criterias c) v r -> is_nan r = false) ->
  (forall r, stopping_residual (stopping_criterias c) v r -> nleb r (amax e) = true) /\
  (stopping_residual (stopping_criterias c) v (amax e) \/ neqb (amax e) n0 = true).
Proof.
  intros c v e H Hnn. apply stopping_vector in H. destruct H as (_ & _ & Hin & Hout).
  assert (Hall : Forall (fun x => isnan x = false) e).
  { apply Forall_forall. intros x Hx. destruct (Hout x Hx) as [Hs|(_ & ->)]; [apply Hnn; auto|reflexivity]. }
  destruct (amax_spec e Hall) as (Hm & Hb & _). rewrite Forall_forall in Hb. split.
  - intros r Hr. rewrite <- (stopping_abs _ _ _ Hr). auto.
  - destruct (amax_in e) as [(-> & ->)|(x & Hx & ->)]; [right; reflexivity|].
    destruct (Hout x Hx) as [Hs|(_ & ->)]; [left|right; reflexivity].
    now rewrite (stopping_abs _ _ _ Hs).
Qed.
Print Assumptions C59_max_norm.

Theorem C59_max_norm_of_nothing : neqb (amax ([] : vec f64)) n0 = true.
Proof. reflexivity. Qed.

Example C59_case :
  neqb (amax [Fz 1; Fz (-7); Fz 3]) (Fz 7) = true.
Proof. vm_compute. reflexivity. Qed.
