(** C65: the step limits between the iterates of a run. *)
From Coq Require Import Reals Lra.
From Flocq Require Import Core BinarySingleNaN.
From Verif Require Import Base Num Linalg Residuals Iteratives UserModel Jacobian Solver Trace
  F64 F64Facts F64Arith Tactics FlowFacts FlagFacts Samples Fresh Reach StepFacts PropsLimits PropsStep PropsNorm.
Open Scope nat_scope.

(** A model that keeps the iteratives it is given. *)
Record keeps_iteratives {St EI EU} (M : Model f64 St EI EU) : Prop := {
  ki_evaluate : forall s x s1 r, evaluate M (set_iteratives M s x) = Ret (s1, r) -> get_iteratives M s1 = x;
  ki_jacobian : forall s s1 r, get_jacobian M s = Ret (s1, r) -> get_iteratives M s1 = get_iteratives M s
}.

Definition finite_point (x : vec f64) : Prop := Forall (fun a => isfin a = true) x.
(** Every variable moved by no more than its limits from [x] to [x']: not past
    [x_i -+ b] for each limit [b] of variable [i] at [x_i]. *)
Definition moved_within (ps : list (iterative_params f64)) (x x' : vec f64) : Prop :=
  forall i p a a', nth_error ps i = Some p -> nth_error x i = Some a -> nth_error x' i = Some a' ->
  forall b, is_limit p a b -> nleb (nsub a b) a' = true /\ nleb a' (nadd a b) = true.

(** As one would expect from the documentation of [max_step_abs] and
    [max_step_rel]: from one iterate to the next. *)
Definition C65_statement : Prop :=
  forall St EI EU (M : Model f64 St EI EU) rf0 s0 rf s me rf' s' e ps,
  keeps_iteratives M -> limits_of (rf_iters_params rf0) ps -> Forall accepted ps ->
  loop_head M rf0 s0 rf s me -> continues rf me = true -> iteration M rf s = Ret (rf', s', Ok e) ->
  in_box ps (get_iteratives M s) -> finite_point (get_iteratives M s) -> finite_point (get_iteratives M s') ->
  moved_within ps (get_iteratives M s) (get_iteratives M s').

Section Run.
Context {IF : Inverter f64} {St EI EU : Type} (M : Model f64 St EI EU) (K : keeps_iteratives M).

Lemma analytic_step_point rf s rf' s' r :
  jacobian_provided M s = true -> compute_step M rf s = Ret (rf', s', r) ->
  get_iteratives M s' = get_iteratives M s.
Proof.
  intros P H.
  assert (J : forall rf1 s1 r1, compute_jac M rf s = Ret (rf1, s1, r1) -> get_iteratives M s1 = get_iteratives M s).
  { intros rf1 s1 r1 C; apply compute_jac_inv in C; destruct C as (j & r0 & _ & C & _); rewrite P in C.
    unfold evaluate_jacobian_from_analytical_function in C; minv1 C; minv1 C.
    match goal with X : get_jacobian M s = _ |- _ => apply (ki_jacobian M K) in X; rename X into G end.
    destruct b as [jv|e']; [minv1 C; destruct (update_jacobian_with_exact_value _ _)|]; injection C as _ <- _; exact G. }
  unfold compute_step in H; destruct (sp_resolution_method (rf_parameters rf)) as [|m].
  - unfold compute_newton_raphson_step in H; minv1 H; pose proof (J _ _ _ eq_refl) as J1; minv1 H.
    destruct b; [minv1 H|]; injection H as _ <- _; exact J1.
  - unfold compute_quasi_newton_step in H; minv1 H.
    match type of E with _ = Ret (_, ?z, _) => assert (G : get_iteratives M z = get_iteratives M s) end.
    { unfold evaluate_jacobian_quasi_newton_step in E; destruct (jm_compute_at_next (rf_jacobian rf)).
      - minv1 E; pose proof (J _ _ _ eq_refl) as J1; minv1 E; injection E as _ <- _; exact J1.
      - minv1 E; match type of E with (if ?b then _ else _) = _ => destruct b end;
          [minv1 E|]; injection E as _ <- _; reflexivity. }
    destruct b; [minv1 H|]; injection H as _ <- _; exact G.
Qed.

(** With analytical jacobians and without damping: each variable whose raw step
    is a number moves within its limits, in the direction of the raw step and by
    no more than it. *)
Theorem C65_analytic_partial rf0 s0 rf s me rf' s' e ps :
  (forall s, jacobian_provided M s = true) -> sp_damping (rf_parameters rf0) = false ->
  limits_of (rf_iters_params rf0) ps -> Forall accepted ps ->
  loop_head M rf0 s0 rf s me -> iteration M rf s = Ret (rf', s', Ok e) ->
  in_box ps (get_iteratives M s) -> finite_point (get_iteratives M s) ->
  exists rf1 s1 v res inv raw,
    compute_step M (set_iter rf (S (rf_iter rf))) s = Ret (rf1, s1, Ok (get_iteratives M s')) /\
    get_residuals M s1 = Ret v /\ evaluate_update_residuals (rf_residuals_config rf0) v = Ret res /\
    jm_inverse (rf_jacobian rf1) = Some inv /\ mat_vec_chk (mat_neg inv) res = Ret raw /\
    forall i p, nth_error ps i = Some p -> exists a d a',
      nth_error (get_iteratives M s) i = Some a /\ nth_error raw i = Some d /\
      nth_error (get_iteratives M s') i = Some a' /\
      (isnan d = false -> respects_limits p a d a') /\
      (isnan d = true -> a' = min_value p).
Proof.
  intros P D L A H I B Fi.
  pose proof (loop_head_config _ _ _ _ _ _ H) as (C1 & _ & C3 & C4 & _).
  apply iteration_full in I; destruct I as (rf1 & s1 & g & s2 & r2 & e0 & e1 & S1 & N & _ & E2 & _ & _ & G & _).
  rewrite C1, D in G; cbn [andb] in G; destruct G as [-> _].
  rewrite (ki_evaluate M K _ _ _ _ E2).
  pose proof (analytic_step_point _ _ _ _ _ (P s) S1) as X.
  pose proof (compute_step_inv _ _ _ _ _ _ S1) as [Q _]; apply same_but_jac_fields in Q.
  destruct Q as ((_ & _ & Q3 & Q4 & _) & _); cbn in Q3, Q4; rewrite C3 in Q3; rewrite C4 in Q4.
  unfold compute_next_from_inv_jac in N; rewrite Q3, Q4, X in N.
  minv1 N; minv1 N; minv1 N; minv1 N.
  destruct (jm_inverse (rf_jacobian rf1)) as [inv|] eqn:J; [|discriminate].
  match goal with V : unwrap (Some _) = Ret _ |- _ => injection V as <- end.
  exists rf1, s1, x, x0, inv, x2; repeat (split; [assumption|]).
  intros i p Hi; apply step_limitations_nth in N; destruct N as [_ N].
  destruct (limits_nth _ _ _ _ L Hi) as (it & Hit & Heq); destruct (N i it Hit) as (a & d & Na & Nd & Ng).
  exists a, d, (it_step_limitation it a d); repeat (split; [assumption|]); rewrite Heq.
  rewrite Forall_forall in A; specialize (A p (nth_error_In _ _ Hi)).
  split.
  - intros Hd; apply C20_limits_respected; [exact A| |exact Hd| |].
    + unfold finite_point in Fi; rewrite Forall_forall in Fi; apply Fi, (nth_error_In _ _ Na).
    + apply (B i p a Hi Na).
    + apply (B i p a Hi Na).
  - intros Hd; apply C22_nan_step; [exact Hd|]; pose proof (accepted_key p A) as (_ & _ & Kk).
    apply leb_key; [apply A|apply A|lra].
Qed.

(** A point between the current value and a value within the limits is within
    the limits. *)
Lemma halfway_respects p (v raw c : f64) : accepted p -> isfin v = true -> isnan raw = false ->
  nleb (min_value p) v = true -> nleb v (max_value p) = true -> halvable v -> halvable c ->
  respects_limits p v raw c -> respects_limits p v raw (damped1 v c).
Proof.
  intros A Fv Nr Lo Hi Hv Hc (R1 & R2 & R3).
  assert (Nv : isnan v = false) by apply (fin_not_nan v Fv).
  assert (Nc : isnan c = false) by apply (fin_not_nan c (proj1 Hc)).
  pose proof (leb_refl v Nv) as Rv; pose proof (leb_refl c Nc) as Rc.
  assert (T : forall x y z : f64, nleb x y = true -> nleb y z = true -> nleb x z = true).
  { intros x y z H1 H2; apply leb_true_inv in H1; apply leb_true_inv in H2.
    destruct H1 as (N1 & _ & H1), H2 as (_ & N2 & H2); apply leb_key; [exact N1|exact N2|lra]. }
  assert (Z : isnan (n0 : f64) = false) by reflexivity.
  assert (Zz : nleb (n0 : f64) n0 = true) by reflexivity.
  destruct (C20_limits_respected p v n0 A Fv Z Lo Hi) as (S1 & S2 & S3).
  destruct (S2 Zz) as (U1 & _); destruct (S3 Zz) as (U2 & _).
  assert (W : (nleb v c = true /\ between v (damped1 v c) c) \/
              (nleb c v = true /\ between c (damped1 v c) v)).
  { destruct (Rle_or_lt (key v) (key c)) as [L|L].
    - left; assert (L' : nleb v c = true) by (apply leb_key; assumption); split; [exact L'|].
      apply damped1_bounds; auto; split; auto.
    - right; assert (L' : nleb c v = true) by (apply leb_key; [exact Nc|exact Nv|lra]); split; [exact L'|].
      apply damped1_bounds; auto; split; auto. }
  split; [|split].
  - intros b Hb; destruct (R1 b Hb) as (B1 & B2); destruct (S1 b Hb) as (B3 & B4).
    pose proof (T _ _ _ B3 U2) as B5; pose proof (T _ _ _ U1 B4) as B6.
    destruct W as [(_ & W1 & W2)|(_ & W1 & W2)].
    + split; [exact (T _ _ _ B5 W1)|exact (T _ _ _ W2 B2)].
    + split; [exact (T _ _ _ B1 W1)|exact (T _ _ _ W2 B6)].
  - intros P; destruct (R2 P) as (P1 & P2); destruct W as [(_ & W1 & W2)|(_ & W1 & W2)].
    + split; [exact W1|exact (T _ _ _ W2 P2)].
    + split; [exact (T _ _ _ P1 W1)|exact (T _ _ _ W2 (T _ _ _ P1 P2))].
  - intros P; destruct (R3 P) as (P1 & P2); destruct W as [(_ & W1 & W2)|(_ & W1 & W2)].
    + split; [exact (T _ _ _ W2 P1)|exact (T _ _ _ (T _ _ _ P2 P1) W1)].
    + split; [exact W2|exact (T _ _ _ P2 W1)].
Qed.

(** The same with or without damping, where a damped variable whose current and
    proposed values are not subnormal also moves within its limits. *)
Theorem C65_damped_partial rf0 s0 rf s me rf' s' e ps :
  (forall s, jacobian_provided M s = true) ->
  limits_of (rf_iters_params rf0) ps -> Forall accepted ps ->
  loop_head M rf0 s0 rf s me -> iteration M rf s = Ret (rf', s', Ok e) ->
  in_box ps (get_iteratives M s) -> finite_point (get_iteratives M s) ->
  exists rf1 s1 v res inv raw g,
    compute_step M (set_iter rf (S (rf_iter rf))) s = Ret (rf1, s1, Ok g) /\
    get_residuals M s1 = Ret v /\ evaluate_update_residuals (rf_residuals_config rf0) v = Ret res /\
    jm_inverse (rf_jacobian rf1) = Some inv /\ mat_vec_chk (mat_neg inv) res = Ret raw /\
    forall i p, nth_error ps i = Some p -> exists a d c a',
      nth_error (get_iteratives M s) i = Some a /\ nth_error raw i = Some d /\
      nth_error g i = Some c /\ nth_error (get_iteratives M s') i = Some a' /\
      (isnan d = true -> c = min_value p) /\
      (isnan d = false -> respects_limits p a d c) /\
      (a' = c \/ (sp_damping (rf_parameters rf0) = true /\ a' = damped1 a c)) /\
      (isnan d = false -> halvable a -> halvable c -> respects_limits p a d a').
Proof.
  intros P L A H I B Fi.
  pose proof (loop_head_config _ _ _ _ _ _ H) as (C1 & _ & C3 & C4 & _).
  apply iteration_full in I; destruct I as (rf1 & s1 & g & s2 & r2 & e0 & e1 & S1 & N & _ & E2 & _ & _ & G & _).
  pose proof (analytic_step_point _ _ _ _ _ (P s) S1) as X.
  pose proof (compute_step_inv _ _ _ _ _ _ S1) as [Q _]; apply same_but_jac_fields in Q.
  destruct Q as ((_ & _ & Q3 & Q4 & _) & _); cbn in Q3, Q4; rewrite C3 in Q3; rewrite C4 in Q4.
  unfold compute_next_from_inv_jac in N; rewrite Q3, Q4, X in N.
  minv1 N; minv1 N; minv1 N; minv1 N.
  destruct (jm_inverse (rf_jacobian rf1)) as [inv|] eqn:J; [|discriminate].
  match goal with V : unwrap (Some _) = Ret _ |- _ => injection V as <- end.
  exists rf1, s1, x, x0, inv, x2, g; repeat (split; [assumption|]).
  intros i p Hi; apply step_limitations_nth in N; destruct N as [_ N].
  destruct (limits_nth _ _ _ _ L Hi) as (it & Hit & Heq); destruct (N i it Hit) as (a & d & Na & Nd & Ng).
  rewrite Heq in Ng; set (c := step_limitation p a d) in *.
  rewrite Forall_forall in A; specialize (A p (nth_error_In _ _ Hi)).
  assert (Fa : isfin a = true) by (unfold finite_point in Fi; rewrite Forall_forall in Fi; apply Fi, (nth_error_In _ _ Na)).
  destruct (B i p a Hi Na) as (Lo & Hhi).
  assert (Rc : isnan d = false -> respects_limits p a d c)
    by (intros Hd; apply C20_limits_respected; assumption).
  assert (Nc : isnan d = true -> c = min_value p).
  { intros Hd; apply C22_nan_step; [exact Hd|]; pose proof (accepted_key p A) as (_ & _ & Kk).
    apply leb_key; [apply A|apply A|lra]. }
  rewrite C1 in G.
  destruct (sp_damping (rf_parameters rf0)) eqn:D; cbn [andb] in G.
  - match type of G with (if ?b then _ else _) => destruct b end.
    + destruct G as (dd & u & Gd & Ge & _); rewrite X in Gd.
      exists a, d, c, (damped1 a c); repeat (split; [assumption|]).
      rewrite (ki_evaluate M K _ _ _ _ Ge), (damped_guess_nth _ _ _ Gd i a c Na Ng).
      split; [reflexivity|]; repeat (split; [assumption|]); split; [right; auto|].
      intros Hd Ha Hc; apply halfway_respects; auto.
    + destruct G as [-> _]; exists a, d, c, c; rewrite (ki_evaluate M K _ _ _ _ E2).
      repeat (split; [assumption|]); split; [now left|auto].
  - destruct G as [-> _]; exists a, d, c, c; rewrite (ki_evaluate M K _ _ _ _ E2).
    repeat (split; [assumption|]); split; [now left|auto].
Qed.

(** The hypotheses on the iterate hold along the run when they hold for the
    initial guess: the iterates stay in the box, and are finite when the box
    is bounded. *)
Lemma ordered_accepted ps : Forall accepted ps -> ordered ps.
Proof.
  apply Forall_impl; intros p A; pose proof (accepted_key p A) as (_ & _ & Kk).
  apply leb_key; [apply A|apply A|lra].
Qed.
Theorem C65_box rf0 s0 rf s me ps :
  sp_damping (rf_parameters rf0) = false -> limits_of (rf_iters_params rf0) ps -> Forall accepted ps ->
  in_box ps (rf_initial_guess rf0) -> loop_head M rf0 s0 rf s me -> in_box ps (get_iteratives M s).
Proof.
  intros D L A B H; induction H as [s r e rf E U _ _|rf s me rf1 s1 e H IH C I].
  - rewrite (ki_evaluate M K _ _ _ _ E); exact B.
  - pose proof (loop_head_config _ _ _ _ _ _ H) as (C1 & _).
    pose proof I as I'; apply iteration_full in I'.
    destruct I' as (rf2 & s2 & g & s3 & r3 & e0 & e1 & S1 & _ & _ & E2 & _ & _ & G & _).
    rewrite C1, D in G; cbn [andb] in G; destruct G as [-> _].
    rewrite (ki_evaluate M K _ _ _ _ E2).
    eapply C18_proposed_iterate_in_box; [exact L|apply ordered_accepted, A|exact H|exact S1].
Qed.
Definition bounded_box (ps : list (iterative_params f64)) : Prop :=
  Forall (fun p => isfin (min_value p) = true /\ isfin (max_value p) = true) ps.
Lemma between_finite lo x hi : isfin lo = true -> isfin hi = true -> between lo x hi -> isfin x = true.
Proof. intros L H [H1 H2]; destruct lo, hi; try discriminate; destruct x as [|[]| |]; try reflexivity; discriminate. Qed.
Lemma bounded_finite ps x : length x = length ps -> bounded_box ps -> in_box ps x -> finite_point x.
Proof.
  intros N Q B; apply Forall_forall; intros a Ha; apply In_nth_error in Ha; destruct Ha as [i Ha].
  assert (Hi : i < length ps) by (rewrite <- N; apply (proj1 (nth_error_Some x i)); intros Z; discriminate (eq_trans (eq_sym Ha) Z)).
  apply nth_error_Some in Hi; destruct (nth_error ps i) as [p|] eqn:Hp; [|contradiction].
  unfold bounded_box in Q; rewrite Forall_forall in Q; specialize (Q p (nth_error_In _ _ Hp)).
  exact (between_finite _ _ _ (proj1 Q) (proj2 Q) (B i p a Hp Ha)).
Qed.
End Run.

(** With finite differences the limits are taken around the last perturbed
    point: x^2 - 100 from 1, with the perturbation 1 and steps of at most 1/2,
    goes to 5/2. *)
Definition C65_params : iterative_params_fd f64 :=
  mkIterativeParamsFD (mkIterativeParams (ndiv (Fz 1) (Fz 2)) ninf (Fz (-100)) (Fz 100)) PMax (Fz 1) (Fz 1).
Definition sq100 (x : vec f64) : vec f64 := map (fun a => nsub (nmul a a) (Fz 100)) x.
Definition C65_model := scripted_model 1 sq100 None always_ok always_ok.
Definition C65_rf : rootfinder f64 :=
  sample_rf (params6 1 50 NewtonRaphson false) [Fz 1] [iterative_of_params_fd C65_params] (abs_conf 1).
Lemma scripted_keeps n f j es js : keeps_iteratives (scripted_model (F := f64) n f j es js).
Proof.
  split.
  - intros s x s1 r H; injection H as <- _; reflexivity.
  - intros s s1 r H; cbn in H; minv1 H; injection H as <- _; reflexivity.
Qed.
Lemma C65_accepted : accepted (fd_params C65_params).
Proof. repeat split. Qed.
Lemma C65_run : check_iteration C65_model C65_rf (scripted_init 1) 0
  (fun rf s me rf' s' e => match sc_x s, sc_x s' with
     | [a], [a'] => isfin a && isfin a'
         && nleb (min_value (fd_params C65_params)) a && nleb a (max_value (fd_params C65_params))
         && negb (nleb a' (nadd a (max_step_abs (fd_params C65_params))))
     | _, _ => false end) = true.
Proof. vm_compute. reflexivity. Qed.
Theorem C65_finite_difference_refuted : ~ C65_statement.
Proof.
  intros H; pose proof C65_run as W; apply check_iteration_true in W.
  destruct W as (rf & s & me & rf' & s' & e & L & C & I & W).
  destruct (sc_x s) as [|a [|]] eqn:Xs; try discriminate W.
  destruct (sc_x s') as [|a' [|]] eqn:Xs'; try discriminate W.
  rewrite !andb_true_iff in W; destruct W as [[[[W1 W2] W3] W4] W5].
  assert (Ga : get_iteratives C65_model s = [a]) by exact Xs.
  assert (Ga' : get_iteratives C65_model s' = [a']) by exact Xs'.
  specialize (H _ _ _ C65_model C65_rf _ rf s me rf' s' e [fd_params C65_params] (scripted_keeps _ _ _ _ _)
    (or_intror (ex_intro _ [C65_params] (conj eq_refl eq_refl)))
    (Forall_cons _ C65_accepted (Forall_nil _)) L C I).
  rewrite Ga, Ga' in H.
  assert (B : in_box [fd_params C65_params] [a]).
  { intros [|[|i]] p v Hp Hv; try discriminate Hp; injection Hp as <-; injection Hv as <-; split; assumption. }
  specialize (H B (Forall_cons _ W1 (Forall_nil _)) (Forall_cons _ W2 (Forall_nil _))).
  specialize (H 0 _ _ _ eq_refl eq_refl eq_refl _ (or_introl eq_refl)).
  destruct H as [_ H]; rewrite H in W5; discriminate W5.
Qed.

Print Assumptions C65_finite_difference_refuted.

(** A raw step that is not a number also breaks them, with an analytical
    jacobian: infinite residual and derivative at 1, and the next iterate is the
    lower bound -100. *)
Definition nan_model :=
  scripted_model 1 (fun _ => [ninf]) (Some (fun _ => [[ninf]])) always_ok always_ok.
Definition nan_rf : rootfinder f64 :=
  sample_rf (params6 1 50 NewtonRaphson false) [Fz 1] [iterative_of_params (fd_params C65_params)] (abs_conf 1).
Lemma nan_run : check_iteration nan_model nan_rf (scripted_init 1) 0
  (fun rf s me rf' s' e => match sc_x s, sc_x s' with
     | [a], [a'] => neqb a (Fz 1) && neqb a' (Fz (-100)) && isfin a && isfin a'
         && nleb (min_value (fd_params C65_params)) a && nleb a (max_value (fd_params C65_params))
         && negb (nleb (nsub a (max_step_abs (fd_params C65_params))) a')
     | _, _ => false end) = true.
Proof. vm_compute. reflexivity. Qed.
Theorem C65_nan_step_refuted : ~ C65_statement.
Proof.
  intros H; pose proof nan_run as W; apply check_iteration_true in W.
  destruct W as (rf & s & me & rf' & s' & e & L & C & I & W).
  destruct (sc_x s) as [|a [|]] eqn:Xs; try discriminate W.
  destruct (sc_x s') as [|a' [|]] eqn:Xs'; try discriminate W.
  rewrite !andb_true_iff in W; destruct W as [[[[[[_ _] W1] W2] W3] W4] W5].
  assert (Ga : get_iteratives nan_model s = [a]) by exact Xs.
  assert (Ga' : get_iteratives nan_model s' = [a']) by exact Xs'.
  specialize (H _ _ _ nan_model nan_rf _ rf s me rf' s' e [fd_params C65_params] (scripted_keeps _ _ _ _ _)
    (or_introl eq_refl) (Forall_cons _ C65_accepted (Forall_nil _)) L C I).
  rewrite Ga, Ga' in H.
  assert (B : in_box [fd_params C65_params] [a]).
  { intros [|[|i]] p v Hp Hv; try discriminate Hp; injection Hp as <-; injection Hv as <-; split; assumption. }
  specialize (H B (Forall_cons _ W1 (Forall_nil _)) (Forall_cons _ W2 (Forall_nil _))).
  specialize (H 0 _ _ _ eq_refl eq_refl eq_refl _ (or_introl eq_refl)).
  destruct H as [H _]; rewrite H in W5; discriminate W5.
Qed.
Print Assumptions C65_nan_step_refuted.
Print Assumptions C65_analytic_partial.
Print Assumptions C65_box.

(** x^2 - 100 with its derivative from 1, steps of at most 1/2: 1, 3/2, 2. *)
Example C65_case :
  check_iteration (scripted_model 1 sq100 (Some sq2_jac) always_ok always_ok) nan_rf (scripted_init 1) 1
  (fun rf s me rf' s' e => match sc_x s, sc_x s' with
     | [a], [a'] => neqb a (ndiv (Fz 3) (Fz 2)) && neqb a' (Fz 2)
     | _, _ => false end) = true.
Proof. vm_compute. reflexivity. Qed.
Print Assumptions C65_damped_partial.

(** x^2 - 2 from 1/8 with damping and steps of at most 4: the full step goes to
    33/8, where the error is larger, the damped one to 17/8. *)
Example C65_case_damped :
  check_iteration (scripted_model 1 sq2 (Some sq2_jac) always_ok always_ok)
    (sample_rf (params6 1 50 NewtonRaphson true) [ndec 1 8]
       [iterative_of_params (mkIterativeParams (Fz 4) ninf (Fz (-100)) (Fz 100))] (abs_conf 1))
    (scripted_init 1) 0
  (fun rf s me rf' s' e => match sc_x s, sc_x s' with
     | [a], [a'] => neqb a (ndec 1 8) && neqb a' (ndec 17 8)
         && negb (nleb (nsub a' a) (Fz 1)) && nleb a' (nadd a (Fz 4))
     | _, _ => false end) = true.
Proof. vm_compute. reflexivity. Qed.
