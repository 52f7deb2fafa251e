(** Properties of the constructors, the step limits and the perturbations:
    C16, C18 - C25. *)
From Coq Require Import Reals Lra.
From Flocq Require Import Core BinarySingleNaN.
From Verif Require Import Base Num Linalg Residuals Iteratives UserModel Jacobian Solver
  F64 F64Facts F64Arith LimitFacts Tactics FlowFacts FlagFacts Trace TraceFacts SimFacts
  Spec Fresh ResidualFacts VerdictFacts CountFacts Samples Reach StepFacts PropsVerdict.
Open Scope nat_scope.

(** *** C16 *)

(** [RootFinder::new] returns exactly on consistent lengths, and the solver then
    holds the inputs. *)
Theorem C16_new :
  forall F (NF : Num F) (p : solver_parameters F) guess its conf,
  let consistent :=
    length (stopping_criterias conf) = sp_problem_size p /\
    length guess = sp_problem_size p /\ length its = sp_problem_size p in
  (consistent -> exists rf, rootfinder_new p guess its conf = Ret rf /\
     rf_parameters rf = p /\ rf_initial_guess rf = guess /\ rf_iters_params rf = its /\
     rf_residuals_config rf = conf /\ rf_debug rf = false /\ rf_iter rf = 0 /\
     rf_log rf = None /\ rf_iteratives_step rf = None /\ rf_residuals_step rf = None /\
     rf_residuals_current rf = None /\ rf_valid_last rf = true /\
     jm_matrix (rf_jacobian rf) = None /\ jm_inverse (rf_jacobian rf) = None /\
     jm_compute_at_next (rf_jacobian rf) = true) /\
  (~ consistent -> rootfinder_new p guess its conf = Panic PanicDim).
Proof.
  intros F NF p guess its conf consistent. unfold rootfinder_new, residuals_config_len.
  split.
  - intros (-> & -> & ->). rewrite Nat.eqb_refl. cbn. eexists. repeat split.
  - intros Hc.
    destruct (Nat.eqb (length (stopping_criterias conf)) (sp_problem_size p)) eqn:E1; [|reflexivity].
    destruct (Nat.eqb (length guess) (sp_problem_size p)) eqn:E2; [|reflexivity].
    destruct (Nat.eqb (length its) (sp_problem_size p)) eqn:E3; [|reflexivity].
    apply Nat.eqb_eq in E1, E2, E3. elim Hc. split; auto.
Qed.
Print Assumptions C16_new.

(** [default_with_guess]: size of the guess, tolerance 1e-6, 50 iterations. *)
Theorem C16_default :
  forall (guess : vec f64) its conf m d rf,
  default_with_guess guess its conf m d = Ret rf ->
  sp_problem_size (rf_parameters rf) = length guess /\ rf_initial_guess rf = guess /\
  rf_iters_params rf = its /\ rf_residuals_config rf = conf /\
  sp_max_iter (rf_parameters rf) = 50 /\ sp_resolution_method (rf_parameters rf) = m /\
  sp_damping (rf_parameters rf) = d /\
  B2SF (sp_tolerance (rf_parameters rf)) = SpecFloat.S754_finite false 4722366482869645 (-72).
Proof.
  intros guess its conf m d rf H. unfold default_with_guess, rootfinder_new in H.
  repeat (destruct (negb _) in H; [discriminate H|]). injection H as <-.
  repeat split.
Qed.
Print Assumptions C16_default.

Example C16_case :
  (match rootfinder_new (params6 2 50 NewtonRaphson false) [Fz 1; Fz 2] (fd_its 2) (abs_conf 2) with
   | Ret _ => True | Panic _ => False end) /\
  rootfinder_new (params6 2 50 NewtonRaphson false) [Fz 1; Fz 2] (fd_its 2) (abs_conf 1) = Panic PanicDim /\
  rootfinder_new (params6 2 50 NewtonRaphson false) [Fz 1] (fd_its 2) (abs_conf 2) = Panic PanicDim /\
  rootfinder_new (params6 2 50 NewtonRaphson false) [Fz 1; Fz 2] (fd_its 3) (abs_conf 2) = Panic PanicDim.
Proof. repeat split; reflexivity. Qed.

(** *** C18 *)

(** [x] lies between [lo] and [hi]; in particular it is not NaN. *)
Definition between (lo x hi : f64) : Prop := nleb lo x = true /\ nleb x hi = true.

(** Whatever the current value and the raw step, NaN included. *)
Theorem C18_step_limitation_in_box :
  forall (p : iterative_params f64) v raw,
  nleb (min_value p) (max_value p) = true ->
  between (min_value p) (step_limitation p v raw) (max_value p).
Proof.
  intros p v raw H. apply leb_true_inv in H. destruct H as (Hn & Hx & Hle).
  unfold step_limitation.
  destruct (clamp_box (nadd v (nmul (nmin (nmin (max_step_abs p) (nmul (max_step_rel p) (nabs v))) (nabs raw))
    (nsignum raw))) (min_value p) (max_value p) Hn Hx Hle) as (H1 & H2).
  split; apply leb_key; auto; apply H2.
Qed.
Print Assumptions C18_step_limitation_in_box.

(** The iterative variables [its] have the limits [ps]. *)
Definition limits_of (its : list (iterative f64)) (ps : list (iterative_params f64)) : Prop :=
  its = map iterative_of_params ps \/
  exists qs, its = map iterative_of_params_fd qs /\ ps = map fd_params qs.
(** The bounds of every variable are in order. *)
Definition ordered (ps : list (iterative_params f64)) : Prop :=
  Forall (fun p => nleb (min_value p) (max_value p) = true) ps.
Definition in_box (ps : list (iterative_params f64)) (x : vec f64) : Prop :=
  forall i p v, nth_error ps i = Some p -> nth_error x i = Some v ->
  between (min_value p) v (max_value p).

Lemma step_limitations_nth : forall its (v r g : vec f64), step_limitations its v r = Ret g ->
  length g = length v /\
  forall i it, nth_error its i = Some it -> exists a b,
    nth_error v i = Some a /\ nth_error r i = Some b /\ nth_error g i = Some (it_step_limitation it a b).
Proof.
  induction its as [|it its IH]; intros v r g H.
  - injection H as <-. split; [unfold vzeros; apply repeat_length|]. intros [] ? [=].
  - cbn [step_limitations] in H. destruct v as [|a v]; [discriminate|].
    destruct r as [|b r]; [discriminate|]. minv1 H. minv1 H.
    apply IH in E. destruct E as (E1 & E2). split; [cbn; congruence|].
    intros [|i] it' Hi; [|apply E2, Hi]. injection Hi as <-. exists a, b. repeat split.
Qed.

Lemma limits_nth : forall its ps i p, limits_of its ps -> nth_error ps i = Some p ->
  exists it, nth_error its i = Some it /\ it_step_limitation it = step_limitation p.
Proof.
  intros its ps i p [->|(qs & -> & ->)] H.
  - exists (iterative_of_params p). split; [|reflexivity]. now apply map_nth_error.
  - destruct (nth_error qs i) as [q|] eqn:E.
    + rewrite (map_nth_error _ _ _ E) in H. injection H as <-.
      exists (iterative_of_params_fd q). split; [|reflexivity]. now apply map_nth_error.
    + exfalso. apply nth_error_None in E.
      assert (nth_error (map fd_params qs) i = None) by (apply nth_error_None; rewrite map_length; exact E).
      congruence.
Qed.

Lemma step_limitations_box : forall its ps (v r g : vec f64), limits_of its ps -> ordered ps ->
  step_limitations its v r = Ret g -> in_box ps g.
Proof.
  intros its ps v r g Hl Ho H. apply step_limitations_nth in H. destruct H as (_ & H).
  intros i p x Hi Hx. destruct (limits_nth its ps i p Hl Hi) as (it & Hit & Heq).
  destruct (H i it Hit) as (a & b & _ & _ & Hg). rewrite Hx in Hg.
  injection Hg as ->. rewrite Heq. apply C18_step_limitation_in_box.
  unfold ordered in Ho. rewrite Forall_forall in Ho. apply Ho. eapply nth_error_In. exact Hi.
Qed.

(** Hence the iterate proposed by every iteration of every run is in the box. *)
Theorem C18_proposed_iterate_in_box :
  forall (IF : Inverter f64) St EI EU (M : Model f64 St EI EU) rf0 s0 rf s me rf1 s1 g ps,
  limits_of (rf_iters_params rf0) ps -> ordered ps ->
  loop_head M rf0 s0 rf s me ->
  compute_step M (set_iter rf (S (rf_iter rf))) s = Ret (rf1, s1, Ok g) ->
  in_box ps g.
Proof.
  intros IF St EI EU M rf0 s0 rf s me rf1 s1 g ps Hps Ho Hl H.
  apply loop_head_config in Hl. destruct Hl as (_ & _ & Hi & _).
  apply compute_step_inv in H. destruct H as (Hj & H). specialize (H g eq_refl).
  apply same_but_jac_fields in Hj. destruct Hj as ((_ & _ & Hi1 & _) & _). cbn in Hi1.
  unfold compute_next_from_inv_jac in H. minv1 H. minv1 H. minv1 H. minv1 H.
  rewrite Hi1, Hi in H. eapply step_limitations_box; eauto.
Qed.
Print Assumptions C18_proposed_iterate_in_box.

(** Bounds [-1; 3] reached from below by a huge step, and by a NaN step. *)
Definition C18_params : iterative_params f64 := mkIterativeParams ninf ninf (Fz (-1)) (Fz 3).
Example C18_case :
  neqb (step_limitation C18_params (Fz 0) (Fz 1000)) (Fz 3) = true /\
  neqb (step_limitation C18_params (Fz 0) nneginf) (Fz (-1)) = true /\
  neqb (step_limitation C18_params (Fz 0) nnan) (Fz (-1)) = true /\
  neqb (step_limitation C18_params (Fz 1) (Fz 1)) (Fz 2) = true.
Proof. repeat split; vm_compute; reflexivity. Qed.

(** *** C19 *)

(** As claimed: all points given to the model stay in the box. *)
Definition C19_statement : Prop :=
  forall (IF : Inverter f64) St EI EU (M : Model f64 St EI EU) rf ps s rf' s' t r,
  fresh rf -> limits_of (rf_iters_params rf) ps -> ordered ps -> in_box ps (rf_initial_guess rf) ->
  solve (traced M) rf (s, []) = Ret (rf', (s', t), r) ->
  Forall (in_box ps) (points t).

Definition C19_params : iterative_params_fd f64 :=
  mkIterativeParamsFD (mkIterativeParams ninf ninf (Fz (-1)) (Fz 1)) PMax
    (ndec 5 100000000) (ndec 5 100000000).
Definition C19_rf : rootfinder f64 :=
  sample_rf (params6 1 50 NewtonRaphson false) [Fz 1] [iterative_of_params_fd C19_params] (abs_conf 1).

(** The finite differences start from the upper bound 1 and leave the box. *)
Theorem C19_never_outside_refuted : ~ C19_statement.
Proof.
  intros H.
  assert (W : check_run (solve (traced (model_from_function sq2)) C19_rf (user_model_new 1, []))
    (fun rf p r => existsb (fun x => match x with [v] => nltb (Fz 1) v | _ => false end)
       (points (snd p))) = true) by (vm_compute; reflexivity).
  apply check_run_true in W. destruct W as (rf' & [s' t] & r & H1 & W).
  assert (Hp : Forall (in_box [fd_params C19_params]) (points t)).
  { eapply H; [| | | |exact H1].
    - apply sample_fresh; reflexivity.
    - right. exists [C19_params]. split; reflexivity.
    - repeat constructor.
    - intros [|[|i]] p v Hi Hv; try discriminate Hi. injection Hi as <-. injection Hv as <-.
      split; vm_compute; reflexivity. }
  apply existsb_exists in W. destruct W as (x & Hx & W).
  rewrite Forall_forall in Hp. specialize (Hp x Hx). destruct x as [|v [|]]; try discriminate W.
  destruct (Hp 0 (fd_params C19_params) v eq_refl eq_refl) as (_ & Hv).
  apply leb_true_inv in Hv. apply ltb_true_inv in W. cbn [max_value fd_params C19_params] in Hv. lra.
Qed.
Print Assumptions C19_never_outside_refuted.

Lemma points_app : forall F (a b : list (event F)), points (a ++ b) = points a ++ points b.
Proof. induction a as [|[] a IH]; intros b; cbn; rewrite ?IH; reflexivity. Qed.

Section C19.
Context {IF : Inverter f64} {St EI EU : Type} (M : Model f64 St EI EU).
Context (Hjac : forall s, jacobian_provided M s = true).

Lemma analytic_compute_jac : forall rf s t rf' p' r,
  compute_jac (traced M) rf (s, t) = Ret (rf', p', r) ->
  exists s' b, p' = (s', t ++ b) /\ points b = [] /\
    (s' = s \/ exists r, get_jacobian M s = Ret (s', r)).
Proof.
  intros rf s t rf' p' r H. unfold compute_jac in H. cbn [jacobian_provided traced fst] in H.
  rewrite Hjac in H. minv1 H. rename E into Ej. minv1 H.
  unfold evaluate_jacobian_from_analytical_function in Ej. minv1 Ej. minv1 Ej. rename E0 into Eg.
  apply traced_jac_inv in Eg. destruct Eg as (s1 & Hs1 & ->). cbn [fst snd] in Hs1, Ej.
  assert (Hp : p' = (s1, t ++ [EJac (status_of b0)])).
  { destruct b0; [|minv1 Ej; reflexivity]. minv1 Ej. destruct (update_jacobian_with_exact_value _ _).
    minv1 Ej. reflexivity. }
  exists s1, [EJac (status_of b0)]. split; [exact Hp|]. split; [reflexivity|]. right. exists b0. exact Hs1.
Qed.

Lemma analytic_compute_step : forall rf s t rf' p' r,
  compute_step (traced M) rf (s, t) = Ret (rf', p', r) ->
  exists s' b, p' = (s', t ++ b) /\ points b = [] /\
    (s' = s \/ exists r, get_jacobian M s = Ret (s', r)).
Proof.
  intros rf s t rf' p' r H. unfold compute_step in H.
  destruct (sp_resolution_method (rf_parameters rf)) as [|m].
  - unfold compute_newton_raphson_step in H. minv1 H. rename E into Ec.
    apply analytic_compute_jac in Ec. destruct Ec as (sx & bx & -> & Hbx & Hsx).
    minv1 H. destruct b; [minv1 H|]; minv1 H; eauto.
  - unfold compute_quasi_newton_step in H. minv1 H. rename E into Eq.
    assert (Hq : exists s' b', b0 = (s', t ++ b') /\ points b' = [] /\
      (s' = s \/ exists r, get_jacobian M s = Ret (s', r))).
    { unfold evaluate_jacobian_quasi_newton_step in Eq.
      destruct (jm_compute_at_next (rf_jacobian rf)).
      - minv1 Eq. rename E into Ec. apply analytic_compute_jac in Ec.
        destruct Ec as (sx & bx & -> & Hbx & Hsx). minv1 Eq. minv1 Eq. eauto.
      - minv1 Eq. minv1 Eq; [minv1 Eq|]; minv1 Eq; exists s, []; rewrite app_nil_r; auto. }
    destruct Hq as (sx & bx & -> & Hbx & Hsx). destruct b; [minv1 H|]; minv1 H; eauto.
Qed.

Lemma undamped_update : forall rf s t g rf' p' r,
  sp_damping (rf_parameters rf) = false ->
  update_model (traced M) rf (s, t) g = Ret (rf', p', r) ->
  exists s' k, p' = (s', t ++ [ESet g; EEval k]).
Proof.
  intros rf s t g rf' p' r Hd H. apply update_model_inv in H.
  destruct H as (e & p1 & r1 & _ & Hev & H).
  apply traced_set_eval_inv in Hev. destruct Hev as (s1 & _ & ->).
  destruct H as [(x & _ & _ & -> & _)|(en & _ & _ & Hf)]; [eauto|].
  apply finish_update_full in Hf. destruct Hf as (e1 & _ & Hf & _).
  cbn [rf_parameters set_valid] in Hf. rewrite Hd in Hf. cbn [andb] in Hf. destruct Hf as (-> & _). eauto.
Qed.

Lemma analytic_iteration : forall rf s t rf' p' r ps,
  sp_damping (rf_parameters rf) = false -> limits_of (rf_iters_params rf) ps -> ordered ps ->
  Forall (in_box ps) (points t) ->
  iteration (traced M) rf (s, t) = Ret (rf', p', r) ->
  Forall (in_box ps) (points (snd p')).
Proof.
  intros rf s t rf' p' r ps Hd Hl Ho Ht H. apply iteration_inv in H.
  destruct H as (rf1 & p1 & r1 & Hs & H). assert (Hs' := Hs).
  apply analytic_compute_step in Hs'. destruct Hs' as (s1 & b & -> & Hb & _).
  destruct r1 as [g|e].
  - apply compute_step_inv in Hs. destruct Hs as (Hj & Hg). specialize (Hg g eq_refl).
    apply same_but_jac_fields in Hj. destruct Hj as ((Hp & _ & Hi & _) & _). cbn in Hp, Hi.
    assert (Hbox : in_box ps g).
    { unfold compute_next_from_inv_jac in Hg. minv1 Hg. minv1 Hg. minv1 Hg. minv1 Hg.
      rewrite Hi in Hg. eapply step_limitations_box; eauto. }
    apply undamped_update in H; [|rewrite Hp; exact Hd]. destruct H as (s2 & k & ->).
    cbn [snd]. rewrite !points_app, Hb, app_nil_r. apply Forall_app. split; [exact Ht|].
    constructor; [exact Hbox|constructor].
  - destruct H as (_ & -> & _). cbn [snd]. rewrite points_app, Hb, app_nil_r. exact Ht.
Qed.

Lemma analytic_heads : forall rf0 s0 rf p me ps,
  sp_damping (rf_parameters rf0) = false -> limits_of (rf_iters_params rf0) ps -> ordered ps ->
  in_box ps (rf_initial_guess rf0) ->
  loop_head (traced M) rf0 (s0, []) rf p me -> Forall (in_box ps) (points (snd p)).
Proof.
  intros rf0 s0 rf p me ps Hd Hl Ho Hg H.
  induction H as [p r e rf Hev Hnu He Hdb|rf p me rf1 p1 e Hh IH Hc Hit].
  - apply traced_set_eval_inv in Hev. destruct Hev as (s1 & _ & ->). cbn.
    constructor; [exact Hg|constructor].
  - apply loop_head_config in Hh. destruct Hh as (Hp & _ & Hi & _).
    destruct p as [s t]. eapply analytic_iteration; [..|exact Hit].
    + rewrite Hp. exact Hd.
    + rewrite Hi. exact Hl.
    + exact Ho.
    + exact IH.
Qed.
End C19.

(** Corrected statement: without finite differences and without damping, all
    points given to the model are in the box. *)
Theorem C19_inside_without_finite_differences :
  forall (IF : Inverter f64) St EI EU (M : Model f64 St EI EU) rf ps s rf' s' t r,
  (forall s, jacobian_provided M s = true) -> sp_damping (rf_parameters rf) = false ->
  limits_of (rf_iters_params rf) ps -> ordered ps -> in_box ps (rf_initial_guess rf) ->
  solve (traced M) rf (s, []) = Ret (rf', (s', t), r) ->
  Forall (in_box ps) (points t).
Proof.
  intros IF St EI EU M rf ps s rf' s' t r Hj Hd Hl Ho Hg H.
  destruct (solve_heads _ _ _ _ _ _ H)
    as [(x & _ & _ & Hev)|[(me & Hh & _)|(rf1 & p1 & me & x & Hh & _ & Hit & _)]].
  - apply traced_set_eval_inv in Hev. destruct Hev as (s1 & _ & Hp). injection Hp as _ ->. cbn.
    constructor; [exact Hg|constructor].
  - apply (analytic_heads M Hj rf s rf' (s', t) me ps Hd Hl Ho Hg Hh).
  - assert (Hp := analytic_heads M Hj rf s rf1 p1 me ps Hd Hl Ho Hg Hh).
    apply loop_head_config in Hh. destruct Hh as (Hpp & _ & Hi & _).
    destruct p1 as [s1 t1].
    apply (analytic_iteration M Hj rf1 s1 t1 rf' (s', t) (Err x) ps); auto; rewrite ?Hpp, ?Hi; assumption.
Qed.
Print Assumptions C19_inside_without_finite_differences.

(** A bounded run that reaches its bound 5/4 twice before stopping. *)
Example C19_case :
  check_run (solve (traced (model_from_function_and_jacobian sq2 sq2_jac))
      (sample_rf (params6 1 2 NewtonRaphson false) [Fz 1]
        [iterative_of_params (mkIterativeParams ninf ninf (Fz 0) (ndec 5 4))] (abs_conf 1))
      (user_model_new 1, []))
    (fun rf p r => is_nonconv r && Nat.eqb (length (points (snd p))) 3 &&
       match points (snd p) with
       | [_; [a]; [b]] => neqb a (ndec 5 4) && neqb b (ndec 5 4)
       | _ => false
       end) = true.
Proof. vm_compute. reflexivity. Qed.
