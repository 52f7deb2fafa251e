(** What an iteration does with the jacobian and with the proposed point:
    C34, C35, C36, C37, C38, C41. *)
From Coq Require Import Reals Lra.
From Flocq Require Import Core BinarySingleNaN.
From Verif Require Import Base Num Linalg Residuals Iteratives UserModel Jacobian Solver
  F64 F64Facts Tactics FlowFacts FlagFacts Trace TraceFacts SimFacts Spec Fresh ResidualFacts
  VerdictFacts CountFacts Samples Reach LogFacts StepFacts PropsVerdict PropsFlow PropsMethod.
Open Scope nat_scope.

Section Reused.
Context {F : Type} {NF : Num F} {IF : Inverter F} {St EI EU : Type} (M : Model F St EI EU).

Lemma compute_step_reused : forall (rf : rootfinder F) s rf' s' g,
  compute_step M rf s = Ret (rf', s', Ok g) ->
  is_quasi_newton (sp_resolution_method (rf_parameters rf)) = true ->
  jm_compute_at_next (rf_jacobian rf) = false -> s' = s.
Proof.
  intros rf s rf' s' g H Hq Hf. unfold compute_step in H.
  destruct (sp_resolution_method (rf_parameters rf)) as [|m]; [discriminate Hq|].
  unfold compute_quasi_newton_step, evaluate_jacobian_quasi_newton_step in H. rewrite Hf in H.
  minv1 H. rename E into Eq. minv1 Eq. rename E into Ea.
  match type of Eq with context [if ?c then _ else _] => destruct c end.
  - minv1 Eq. injection Eq as <- <- <-. minv1 H. now injection H.
  - injection Eq as <- <- <-. discriminate H.
Qed.

End Reused.

Section Traced.
Context {F : Type} {NF : Num F} {IF : Inverter F} {St EI EU : Type} (M : Model F St EI EU).
Notation T := (traced M).

(** The point between the current and the proposed one. *)
Definition halfway (cur prop d : vec F) : Prop :=
  length d = length cur /\ length d = length prop /\
  forall i c p, nth_error cur i = Some c -> nth_error prop i = Some p ->
    nth_error d i = Some (nadd (nmul c (nsub (nofZ 1) (ndiv (nofZ 1) (nofZ 2))))
                               (nmul p (ndiv (nofZ 1) (nofZ 2)))).

Lemma nth_error_map2 : forall A B C (f : A -> B -> C) u v i a b,
  nth_error u i = Some a -> nth_error v i = Some b ->
  nth_error (map2 f u v) i = Some (f a b).
Proof.
  induction u as [|x u IH]; intros [|y v] [|i] a b Ha Hb; try discriminate Ha; try discriminate Hb.
  - cbn in *. congruence.
  - cbn in *. now apply IH.
Qed.
Lemma length_map2 : forall A B C (f : A -> B -> C) u v, length u = length v ->
  length (map2 f u v) = length u.
Proof.
  induction u as [|x u IH]; intros [|y v] H; try discriminate H; [reflexivity|].
  cbn. now rewrite IH by (injection H; auto).
Qed.

Lemma damped_halfway : forall cur prop d, damped_guess cur prop = Ret d -> halfway cur prop d.
Proof.
  intros cur prop d H. unfold damped_guess, vadd in H.
  destruct (Nat.eqb _ _) eqn:E; [|discriminate H]. injection H as <-.
  apply Nat.eqb_eq in E. unfold vscale in E. rewrite !map_length in E.
  unfold vadd_raw, vscale. repeat split.
  - rewrite length_map2; now rewrite !map_length.
  - rewrite length_map2; rewrite !map_length; congruence.
  - intros i c p Hc Hp. rewrite (nth_error_map2 _ _ _ _ _ _ i (nmul c (nsub n1 damping_factor)) (nmul p damping_factor)).
    + reflexivity.
    + apply map_nth_error with (f := fun x => nmul x (nsub n1 damping_factor)). exact Hc.
    + apply map_nth_error with (f := fun x => nmul x damping_factor). exact Hp.
Qed.

(** The calls of an iteration, with the residuals before and after. *)
Lemma traced_iteration : forall (rf : rootfinder F) s t rf' s' t' en,
  iteration T rf (s, t) = Ret (rf', (s', t'), Ok en) ->
  exists j b s1 x k s2 e0 e1,
    jac_block j b /\
    j = (if (negb (is_quasi_newton (sp_resolution_method (rf_parameters rf)))
            || jm_compute_at_next (rf_jacobian rf))%bool
        then computed_kind M s else JReused) /\
    (j = JReused -> b = [] /\ s1 = s) /\
    k <> SUnusable /\
    evaluate_errors M rf s1 = Ret e0 /\
    (exists r, evaluate M (set_iteratives M s1 x) = Ret (s2, r) /\ k = status_of r) /\
    evaluate_errors M rf s2 = Ret e1 /\
    (if sp_damping (rf_parameters rf) && ngtb (amax e1) (amax e0)
        && negb (is_quasi_newton (sp_resolution_method (rf_parameters rf)) && approximated_after rf)
     then exists d u, halfway (get_iteratives M s1) x d /\
            evaluate M (set_iteratives M s2 d) = Ret (s', Ok u) /\
            evaluate_errors M rf s' = Ret en /\
            t' = t ++ b ++ [ESet x; EEval k; ESet d; EEval SOk]
     else s' = s2 /\ en = e1 /\ t' = t ++ b ++ [ESet x; EEval k]) /\
    jm_approximated (rf_jacobian rf') = approximated_after rf /\
    jm_compute_at_next (rf_jacobian rf') =
      sp_damping (rf_parameters rf) && ngtb (amax e1) (amax e0)
      && is_quasi_newton (sp_resolution_method (rf_parameters rf))
      && approximated_after rf /\
    same_config rf rf' /\ rf_iter rf' = S (rf_iter rf).
Proof.
  intros rf s t rf' s' t' en H.
  assert (Hf := iteration_fields T rf (s, t) rf' (s', t') _ H). destruct Hf as (Hsc & Hit & _).
  apply (iteration_full T) in H.
  destruct H as (rf1 & [s1 t1] & g & p2 & r2 & e0 & e1 & Hs & _ & H0 & He & Hr2 & H1 & Hd & _ & Ha & Hn & _).
  assert (Hs' := Hs). apply compute_step_trace in Hs'. destruct Hs' as (s1' & j & b & [= <- ->] & Hb & Hj).
  cbn [set_iter rf_parameters rf_jacobian] in Hj.
  apply traced_set_eval_inv in He. destruct He as (s2 & He & ->).
  exists j, b, s1, g, (status_of r2), s2, e0, e1.
  split; [exact Hb|]. split; [exact Hj|]. split.
  { intros ->. split; [now inversion Hb|].
    destruct (negb _ || _) eqn:E.
    { unfold computed_kind in Hj. destruct (jacobian_provided M s); discriminate Hj. }
    apply orb_false_elim in E. destruct E as (E1 & E2). apply negb_false_iff in E1.
    apply compute_step_reused in Hs; [now injection Hs|exact E1|exact E2]. }
  split. { apply (not_unusable (EI := EI) (EU := EU)). exact Hr2. }
  split; [exact H0|]. split; [eauto|]. split; [exact H1|]. split; [|auto].
  destruct (sp_damping (rf_parameters rf) && _ && _).
  - destruct Hd as (d & u & Hd & He2 & Hen). exists d, u.
    split; [now apply damped_halfway|].
    apply traced_set_eval_inv in He2. destruct He2 as (s3 & He2 & [= <- ->]).
    split; [exact He2|]. split; [exact Hen|]. now rewrite <- !app_assoc.
  - destruct Hd as ([= -> ->] & ->). now rewrite <- !app_assoc.
Qed.

Lemma computed_not_reused : forall s, computed_kind M s <> JReused.
Proof. intros s. unfold computed_kind. destruct (jacobian_provided M s); discriminate. Qed.

(** In a resolution of a stationary Newton solver the jacobian is never marked
    as approximated. *)
Lemma stationary_never_approximated : forall rf0 p0 rf p me,
  jm_approximated (rf_jacobian rf0) = false ->
  sp_resolution_method (rf_parameters rf0) = QuasiNewton StationaryNewton ->
  loop_head T rf0 p0 rf p me -> jm_approximated (rf_jacobian rf) = false.
Proof.
  intros rf0 p0 rf p me Ha Hm H. pattern rf, p, me. eapply loop_head_ind_simple; [| |exact H].
  - intros rf1 s e _ Hl _. apply same_but_log_fields in Hl.
    destruct Hl as (_ & _ & Hj & _). now rewrite Hj.
  - intros rf1 [s t] me1 rf2 [s2 t2] e Hl IH _ Hi.
    apply loop_head_config in Hl. destruct Hl as (Hp & _).
    apply traced_iteration in Hi.
    destruct Hi as (j & b & s1 & x & k & s3 & e0 & e1 & _ & _ & _ & _ & _ & _ & _ & _ & Hap & _).
    rewrite Hap. unfold approximated_after. rewrite Hp, Hm.
    destruct (jm_compute_at_next _); [reflexivity|exact IH].
Qed.
End Traced.

(** *** C35 *)

(** Newton-Raphson: every iteration computes the jacobian. *)
Theorem C35_newton_raphson :
  forall F (NF : Num F) (IF : Inverter F) St EI EU (M : Model F St EI EU) rf s rf' s' t r,
  sp_resolution_method (rf_parameters rf) = NewtonRaphson ->
  solve (traced M) rf (s, []) = Ret (rf', (s', t), r) ->
  r = Ok tt \/ r = Err NonConvergenceError \/ r = Err FinalEvaluationError ->
  exists k l t', t = ESet (rf_initial_guess rf) :: EEval k :: t' /\
    iter_blocks l t' /\ rf_iter rf' = rf_iter rf + length l /\
    Forall (fun x => sum_jac x <> JReused) l /\
    ((forall s, jacobian_provided M s = true) -> jacobian_calls t = rf_iter rf' - rf_iter rf).
Proof.
  intros F NF IF St EI EU M rf s rf' s' t r Hm H Hr.
  apply solve_trace in H; [|exact Hr]. destruct H as (k & _ & _ & l & t' & Ht & Hb & Hi & _ & Hk & _).
  cbn [snd app] in Ht. exists k, l, t'. split; [exact Ht|]. split; [exact Hb|]. split; [exact Hi|].
  assert (Hf : Forall (fun x => exists s, sum_jac x = computed_kind M s) l).
  { eapply Forall_impl; [|exact Hk]. intros x [(_ & Hq)|Hx]; [|exact Hx].
    rewrite Hm in Hq. discriminate Hq. }
  split.
  { eapply Forall_impl; [|exact Hf]. intros x (s1 & ->). apply computed_not_reused. }
  intros Hp. rewrite Ht. change (jacobian_calls (?a :: ?b :: ?c)) with (jacobian_calls c).
  rewrite (proj2 (iter_blocks_count _ _ Hb)). rewrite Hi.
  replace (rf_iter rf + length l - rf_iter rf) with (length l) by lia.
  clear -Hf Hp. induction Hf as [|x l (s & Hx) _ IH]; [reflexivity|].
  cbn. unfold total in IH. rewrite IH, Hx. unfold computed_kind. now rewrite Hp.
Qed.
Print Assumptions C35_newton_raphson.

Example C35_newton_raphson_case :
  check_run (solve (traced (scripted_model 1 sq2 (Some sq2_jac) always_ok always_ok))
      (sq2_an 50 NewtonRaphson false) (scripted_init 1, []))
    (fun rf p r => is_ok r && Nat.eqb (rf_iter rf) 4 && Nat.eqb (jacobian_calls (snd p)) 4
       && Nat.eqb (evaluations (snd p)) 5) = true.
Proof. vm_compute. reflexivity. Qed.

(** Quasi-Newton methods without damping: the first iteration computes the
    jacobian, and no other one. *)
Theorem C35_quasi_newton_undamped :
  forall F (NF : Num F) (IF : Inverter F) St EI EU (M : Model F St EI EU) rf s rf' s' t r m,
  fresh rf ->
  sp_resolution_method (rf_parameters rf) = QuasiNewton m ->
  sp_damping (rf_parameters rf) = false ->
  solve (traced M) rf (s, []) = Ret (rf', (s', t), r) ->
  r = Ok tt \/ r = Err NonConvergenceError \/ r = Err FinalEvaluationError ->
  exists k l t', t = ESet (rf_initial_guess rf) :: EEval k :: t' /\
    iter_blocks l t' /\ rf_iter rf' = length l /\
    (forall x l', l = x :: l' ->
       sum_jac x <> JReused /\ Forall (fun y => sum_jac y = JReused) l') /\
    ((forall s, jacobian_provided M s = true) ->
       jacobian_calls t = Nat.min 1 (rf_iter rf') /\ evaluations t = 1 + rf_iter rf') /\
    (forall n, (forall s, jacobian_provided M s = false /\ len_problem M s = n) ->
       jacobian_calls t = 0 /\ evaluations t = 1 + rf_iter rf' + n * Nat.min 1 (rf_iter rf')).
Proof.
  intros F NF IF St EI EU M rf s rf' s' t r m Hfr Hm Hd H Hr.
  destruct (fresh_fields F NF IF rf Hfr) as (Hi0 & Hj0 & _).
  apply solve_trace in H; [|exact Hr].
  destruct H as (k & _ & _ & l & t' & Ht & Hb & Hi & Hda & _ & _ & Hq).
  cbn [snd app] in Ht. exists k, l, t'. split; [exact Ht|]. split; [exact Hb|].
  rewrite Hi0 in Hi. split; [exact Hi|].
  rewrite Hm, Hj0 in Hq. specialize (Hq eq_refl Hd). cbn [jacobian_matrix_new jm_compute_at_next] in Hq.
  destruct (iter_blocks_count _ _ Hb) as (C1 & C2).
  assert (Hev : evaluations t = 1 + evaluations t') by (now rewrite Ht).
  assert (Hjc : jacobian_calls t = jacobian_calls t') by (now rewrite Ht).
  assert (D : total (fun x => if sum_damped x then 1 else 0) l = 0).
  { clear -Hda Hd. induction Hda as [|x l Hx _ IH]; [reflexivity|]. cbn. unfold total in IH. rewrite IH.
    destruct (sum_damped x); [|reflexivity]. specialize (Hx eq_refl). congruence. }
  assert (R : forall l', Forall (fun y => sum_jac y = JReused) l' ->
     total (fun x => fd_cost (sum_jac x)) l' = 0 /\
     total (fun x => if is_analytic (sum_jac x) then 1 else 0) l' = 0).
  { clear. induction 1 as [|x l Hx _ (I1 & I2)]; [split; reflexivity|].
    cbn. unfold total in I1, I2. rewrite I1, I2, Hx. split; reflexivity. }
  rewrite D, Hi in *. clear D. rewrite Hev, Hjc, C1, C2. split; [|split].
  - intros x l' ->. destruct Hq as (_ & (s1 & Hx) & Hl). split; [|exact Hl].
    rewrite Hx. apply computed_not_reused.
  - intros Hp. destruct l as [|x l'].
    + cbn. split; lia.
    + destruct Hq as (_ & (s1 & Hx) & Hl). apply R in Hl. destruct Hl as (R1 & R2).
      cbn [length total fold_right]. unfold total in R1, R2. rewrite R1, R2, Hx.
      unfold computed_kind. rewrite Hp. cbn. split; lia.
  - intros n Hp. destruct l as [|x l'].
    + cbn. split; lia.
    + destruct Hq as (_ & (s1 & Hx) & Hl). apply R in Hl. destruct Hl as (R1 & R2).
      cbn [length total fold_right]. unfold total in R1, R2. rewrite R1, R2, Hx.
      unfold computed_kind. destruct (Hp s1) as (-> & ->). cbn. split; lia.
Qed.
Print Assumptions C35_quasi_newton_undamped.

Example C35_quasi_newton_case :
  check_run (solve (traced (scripted_model 1 sq2 None always_ok always_ok))
      (sq2_fd 50 (QuasiNewton StationaryNewton) false) (scripted_init 1, []))
    (fun rf p r => is_ok r && Nat.ltb 5 (rf_iter rf)
       && Nat.eqb (evaluations (snd p)) (rf_iter rf + 2)) = true.
Proof. vm_compute. reflexivity. Qed.

(** With damping: of two consecutive iterations of a quasi-Newton resolution, the
    second one computes the jacobian exactly if the method is not the stationary
    one, the first one did not compute it, and the first one increased the
    error from [me] to [amax e1]; and the first iteration of all computes it. *)
Theorem C35_recomputation :
  forall F (NF : Num F) (IF : Inverter F) St EI EU (M : Model F St EI EU)
    rf0 p0 m rf s t me rf1 s1 t1 e1 rf2 s2 t2 e2,
  fresh rf0 ->
  sp_resolution_method (rf_parameters rf0) = QuasiNewton m ->
  loop_head (traced M) rf0 p0 rf (s, t) me ->
  iteration (traced M) rf (s, t) = Ret (rf1, (s1, t1), Ok e1) ->
  iteration (traced M) rf1 (s1, t1) = Ret (rf2, (s2, t2), Ok e2) ->
  exists j1 k1 d1 b1 j2 k2 d2 b2,
    t1 = t ++ b1 /\ iter_block j1 k1 d1 b1 /\
    t2 = t1 ++ b2 /\ iter_block j2 k2 d2 b2 /\
    (j2 <> JReused <->
     sp_damping (rf_parameters rf0) = true /\ m <> StationaryNewton /\ j1 = JReused /\
     ngtb (amax e1) me = true) /\
    (rf_iter rf = 0 -> j1 <> JReused).
Proof.
  intros F NF IF St EI EU M rf0 p0 m rf s t me rf1 s1 t1 e1 rf2 s2 t2 e2 Hfr Hm Hl H1 H2.
  destruct (fresh_fields F NF IF rf0 Hfr) as (Hi0 & Hj0 & _).
  assert (Hc := loop_head_config _ _ _ _ _ _ Hl). destruct Hc as (Hp & _ & _ & Hrc & _).
  assert (Hsn : m = StationaryNewton -> jm_approximated (rf_jacobian rf) = false).
  { intros ->. eapply stationary_never_approximated; [|exact Hm|exact Hl]. now rewrite Hj0. }
  assert (Hfirst : rf_iter rf = 0 -> jm_compute_at_next (rf_jacobian rf) = true).
  { clear H1 H2. pattern rf, (s, t), me. eapply loop_head_ind_simple; [| |exact Hl].
    - intros rfa sa ea _ Hla _ _. apply same_but_log_fields in Hla.
      destruct Hla as (_ & _ & Hj & _). now rewrite Hj, Hj0.
    - intros rfa sa mea rfb sb eb _ _ _ Hit Hz. apply iteration_fields in Hit.
      destruct Hit as (_ & Hit & _). lia. }
  destruct (loop_head_error _ _ _ _ _ _ Hl) as (e & He & ->).
  rewrite (evaluate_errors_config _ rf rf0) in He by congruence.
  assert (T1 := H1). apply iteration_trace in T1. destruct T1 as (sa & ja & ka & da & ba & [= <- ->] & B1 & _ & _ & J1).
  assert (T2 := H2). apply iteration_trace in T2. destruct T2 as (sb & jb & kb & db & bb & [= <- ->] & B2 & _ & _ & J2).
  exists ja, ka, da, ba, jb, kb, db, bb.
  split; [reflexivity|]. split; [exact B1|]. split; [reflexivity|]. split; [exact B2|].
  apply traced_iteration in H1.
  destruct H1 as (j & b & sx & x & k & sy & ea & eb & _ & Jj & Hre & _ & Hea & _ & Heb & Hdm & _ & Hn & (Hsp & _) & _).
  rewrite Hsp, Hp, Hm in *. cbn [is_quasi_newton negb orb andb] in *.
  rewrite <- Jj in J1. subst ja.
  assert (Hjr : j = JReused <-> jm_compute_at_next (rf_jacobian rf) = false).
  { rewrite Jj. destruct (jm_compute_at_next (rf_jacobian rf)); split; intros X; try discriminate X; try reflexivity.
    now apply computed_not_reused in X. }
  assert (Hjb : jb <> JReused <-> jm_compute_at_next (rf_jacobian rf1) = true).
  { rewrite J2. destruct (jm_compute_at_next (rf_jacobian rf1)); split; intros X; try discriminate X; try reflexivity.
    - apply computed_not_reused.
    - now elim X. }
  split.
  - rewrite Hjb, Hn. unfold approximated_after in *. rewrite Hp, Hm in *.
    destruct (jm_compute_at_next (rf_jacobian rf)) eqn:Ef.
    { rewrite !andb_false_r. split; [discriminate|]. intros (_ & _ & X & _). apply Hjr in X. discriminate X. }
    destruct Hre as (-> & ->); [now apply Hjr|].
    change (evaluate_errors M rf s = Ret e) in He. rewrite He in Hea. injection Hea as <-.
    destruct (sp_damping (rf_parameters rf0)) eqn:Ed; cbn [andb] in *.
    2:{ split; [discriminate|]. now intros (X & _). }
    destruct m as [|um|um].
    { rewrite (Hsn eq_refl), andb_false_r. split; [discriminate|]. intros (_ & X & _). now elim X. }
    all: cbn [negb] in *; rewrite andb_false_r in Hdm; destruct Hdm as (_ & -> & _); rewrite !andb_true_r;
      split; [intros X; repeat split; [discriminate|now apply Hjr|exact X]|now intros (_ & _ & _ & X)].
  - intros Hz. rewrite Jj, (Hfirst Hz). apply computed_not_reused.
Qed.
Print Assumptions C35_recomputation.

(** A run with one recomputation: f(0) = 1, f(1) = 0.5, then 10. *)
Definition C38_fun (x : vec f64) : vec f64 :=
  match x with
  | [a] => [if neqb a (Fz 0) then Fz 1 else if neqb a (Fz 1) then ndiv (Fz 1) (Fz 2) else Fz 10]
  | _ => []
  end.
Definition C38_model : Model f64 (scripted f64) string string :=
  scripted_model 1 C38_fun (Some (fun _ => [[Fz (-1)]])) always_ok always_ok.
Definition C38_rf (n : nat) : rootfinder f64 :=
  sample_rf (params6 1 n broy1 true) [Fz 0] (jac_its 1) (abs_conf 1).
Example C35_recomputation_case :
  check_run (solve (traced C38_model) (C38_rf 3) (scripted_init 1, []))
    (fun rf p r => is_nonconv r && Nat.eqb (rf_iter rf) 3
       && match snd p with
          | [ESet _; EEval SOk; EJac SOk; ESet _; EEval SOk; ESet _; EEval SOk; EJac SOk; ESet _; EEval SOk] => true
          | _ => false
          end) = true.
Proof. vm_compute. reflexivity. Qed.

(** *** C36 *)

(** The jacobian was computed in this iteration (or the method is
    Newton-Raphson), damping is on and the largest stopping residual increased:
    the model is moved to the middle of the current and proposed points and
    evaluated once more. Otherwise the proposed point is kept. *)
Theorem C36_damping :
  forall F (NF : Num F) (IF : Inverter F) St EI EU (M : Model F St EI EU)
    rf0 p0 rf s t me rf' s' t' en,
  fresh rf0 ->
  loop_head (traced M) rf0 p0 rf (s, t) me ->
  iteration (traced M) rf (s, t) = Ret (rf', (s', t'), Ok en) ->
  exists j b s1 x k s2 r2 v0 v1 e0 e1,
    (* the jacobian is obtained, from the state [s] to the state [s1] *)
    jac_block j b /\ (j = JReused -> s1 = s) /\
    get_residuals M s1 = Ret v0 /\
    evaluate_stopping_residuals (rf_residuals_config rf0) v0 = Ret e0 /\
    (* the proposed point [x] is evaluated *)
    evaluate M (set_iteratives M s1 x) = Ret (s2, r2) /\ status_of r2 = k /\
    get_residuals M s2 = Ret v1 /\
    evaluate_stopping_residuals (rf_residuals_config rf0) v1 = Ret e1 /\
    (* and damped or not *)
    (sp_damping (rf_parameters rf0) = true -> j <> JReused -> ngtb (amax e1) (amax e0) = true ->
       exists d u, halfway (get_iteratives M s1) x d /\
         evaluate M (set_iteratives M s2 d) = Ret (s', Ok u) /\
         t' = t ++ b ++ [ESet x; EEval k; ESet d; EEval SOk]) /\
    (sp_damping (rf_parameters rf0) = false \/ ngtb (amax e1) (amax e0) = false \/
     (j = JReused /\ sp_resolution_method (rf_parameters rf0) <> QuasiNewton StationaryNewton) ->
       s' = s2 /\ t' = t ++ b ++ [ESet x; EEval k]).
Proof.
  intros F NF IF St EI EU M rf0 p0 rf s t me rf' s' t' en Hfr Hl H.
  assert (Hc := loop_head_config _ _ _ _ _ _ Hl). destruct Hc as (Hp & _ & _ & Hrc & _).
  apply traced_iteration in H.
  destruct H as (j & b & s1 & x & k & s2 & e0 & e1 & Hb & Hj & Hre & _ & H0 & (r2 & He & Hk) & H1 & Hd & _).
  unfold evaluate_errors in H0, H1. minv1 H0. rename E into G0. rename x0 into v0. minv1 H1. rename x0 into v1.
  rename E into G1. rewrite Hp, Hrc in *.
  exists j, b, s1, x, k, s2, r2, v0, v1, e0, e1.
  split; [exact Hb|]. split; [intros X; now apply Hre|].
  split; [exact G0|]. split; [exact H0|]. split; [exact He|]. split; [now symmetry|].
  split; [exact G1|]. split; [exact H1|]. split.
  - intros Hdm Hjr Hgt. rewrite Hdm, Hgt in Hd.
    assert (Ha : is_quasi_newton (sp_resolution_method (rf_parameters rf0)) && approximated_after rf = false).
    { unfold approximated_after. rewrite Hp.
      destruct (sp_resolution_method (rf_parameters rf0)) as [|m]; [reflexivity|].
      cbn in *. destruct (jm_compute_at_next (rf_jacobian rf)); [reflexivity|now elim Hjr]. }
    rewrite Ha in Hd. cbn in Hd. destruct Hd as (d & u & D1 & D2 & _ & D3). eauto.
  - intros Hor.
    assert (Hz : sp_damping (rf_parameters rf0) && ngtb (amax e1) (amax e0) &&
      negb (is_quasi_newton (sp_resolution_method (rf_parameters rf0)) && approximated_after rf) = false).
    { destruct Hor as [->|[->|(-> & Hm)]]; [reflexivity|now rewrite andb_false_r|].
      unfold approximated_after. rewrite Hp.
      destruct (sp_resolution_method (rf_parameters rf0)) as [|m].
      { cbn in Hj. now apply eq_sym, computed_not_reused in Hj. }
      cbn [is_quasi_newton negb orb] in Hj.
      destruct (jm_compute_at_next (rf_jacobian rf)); [now apply eq_sym, computed_not_reused in Hj|].
      destruct m; [now elim Hm| |]; apply andb_false_r. }
    rewrite Hz in Hd. destruct Hd as (-> & _ & ->). auto.
Qed.
Print Assumptions C36_damping.

(** With the doubles the factors are one half. *)
Lemma C36_half : B2R (ndiv (nofZ 1) (nofZ 2) : f64) = (1/2)%R /\
  nsub (nofZ 1) (ndiv (nofZ 1) (nofZ 2)) = (ndiv (nofZ 1) (nofZ 2) : f64).
Proof.
  split; [|apply B2SF_inj; vm_compute; reflexivity].
  assert (E : B2SF (ndiv (nofZ 1) (nofZ 2) : f64) = SpecFloat.S754_finite false 4503599627370496 (-53))
    by (vm_compute; reflexivity).
  rewrite <- SF2R_B2SF, E. unfold SF2R, F2R, cond_Zopp, Fnum, Fexp.
  replace (bpow radix2 (-53)) with (/ IZR 9007199254740992)%R; [lra|].
  reflexivity.
Qed.

Example C36_case :
  check_run (solve (traced (scripted_model 1 C04_fun (Some (fun _ => [[Fz (-1)]])) always_ok always_ok))
      C04_rf (scripted_init 1, []))
    (fun rf p r => is_ok r && Nat.eqb (rf_iter rf) 1
       && match snd p with
          | [ESet _; EEval SOk; EJac SOk; ESet [x]; EEval SOk; ESet [d]; EEval SOk] =>
              neqb x (Fz 1) && neqb d (ndiv (Fz 1) (Fz 2))
          | _ => false
          end) = true.
Proof. vm_compute. reflexivity. Qed.

(** *** C37 *)

(** As documented, for models that provide their jacobian: an iteration of a
    quasi-Newton method that does not ask for the jacobian makes no damping, so
    that it evaluates the model once. *)
Definition C37_statement : Prop :=
  forall (IF : Inverter f64) St EI EU (M : Model f64 St EI EU) rf0 p0 m rf s t me rf' s' b en,
  fresh rf0 ->
  sp_resolution_method (rf_parameters rf0) = QuasiNewton m ->
  (forall s, jacobian_provided M s = true) ->
  loop_head (traced M) rf0 p0 rf (s, t) me ->
  continues rf me = true ->
  iteration (traced M) rf (s, t) = Ret (rf', (s', t ++ b), Ok en) ->
  jacobian_calls b = 0 -> evaluations b = 1.

(** f(0) = 1, f(1) = 1, f(2) = 10: the stationary Newton method is damped in its
    second iteration, although the jacobian was computed in the first one. *)
Definition C37_fun (x : vec f64) : vec f64 :=
  match x with
  | [a] => [if neqb a (Fz 0) then Fz 1 else if neqb a (Fz 1) then Fz 1 else Fz 10]
  | _ => []
  end.
Definition C37_model : Model f64 (scripted f64) string string :=
  scripted_model 1 C37_fun (Some (fun _ => [[Fz (-1)]])) always_ok always_ok.
Definition C37_rf : rootfinder f64 :=
  sample_rf (params6 1 2 (QuasiNewton StationaryNewton) true) [Fz 0] (jac_its 1) (abs_conf 1).

Theorem C37_no_damping_without_new_jacobian_refuted : ~ C37_statement.
Proof.
  intros H.
  assert (H1 : check_iteration (traced C37_model) C37_rf (scripted_init 1, []) 1
    (fun rf p _ rf1 p1 _ => Nat.eqb (jacobian_calls (snd p)) (jacobian_calls (snd p1))
       && Nat.eqb (evaluations (snd p1)) (2 + evaluations (snd p))) = true)
    by (vm_compute; reflexivity).
  apply check_iteration_true in H1.
  destruct H1 as (rf & [s t] & me & rf1 & [s1 t1] & e & Hl & Hc & Hi & Hp).
  cbn [snd] in Hp. apply andb_prop in Hp. destruct Hp as (H1 & H2).
  apply Nat.eqb_eq in H1. apply Nat.eqb_eq in H2.
  assert (Ht := Hi). apply iteration_trace in Ht.
  destruct Ht as (s' & _ & _ & _ & b & [= _ ->] & _).
  rewrite jacobian_calls_app in H1. rewrite evaluations_app in H2.
  assert (Hfr : fresh C37_rf) by (apply sample_fresh; reflexivity).
  assert (C : evaluations b = 1).
  { apply (H _ _ _ _ C37_model C37_rf _ StationaryNewton rf s t me rf1 s1 b e
      Hfr eq_refl (fun _ => eq_refl) Hl Hc Hi). lia. }
  lia.
Qed.
Print Assumptions C37_no_damping_without_new_jacobian_refuted.

(** It is true of the methods that update their matrix: the proposed point is
    kept and the jacobian is computed in the next iteration. *)
Theorem C37_update_methods :
  forall F (NF : Num F) (IF : Inverter F) St EI EU (M : Model F St EI EU)
    rf0 p0 m rf s t me rf1 s1 t1 e1 rf2 s2 t2 e2,
  fresh rf0 ->
  sp_resolution_method (rf_parameters rf0) = QuasiNewton m -> m <> StationaryNewton ->
  sp_damping (rf_parameters rf0) = true ->
  loop_head (traced M) rf0 p0 rf (s, t) me ->
  iteration (traced M) rf (s, t) = Ret (rf1, (s1, t1), Ok e1) ->
  iteration (traced M) rf1 (s1, t1) = Ret (rf2, (s2, t2), Ok e2) ->
  exists j1 b1 c1 j2 b2 c2,
    t1 = t ++ b1 ++ c1 /\ jac_block j1 b1 /\
    t2 = t1 ++ b2 ++ c2 /\ jac_block j2 b2 /\
    (j1 = JReused ->
       evaluations c1 = 1 /\ (ngtb (amax e1) me = true -> j2 <> JReused)).
Proof.
  intros F NF IF St EI EU M rf0 p0 m rf s t me rf1 s1 t1 e1 rf2 s2 t2 e2 Hfr Hm Hsn Hd Hl H1 H2.
  assert (Hc := loop_head_config _ _ _ _ _ _ Hl). destruct Hc as (Hp & _ & _ & Hrc & _).
  destruct (loop_head_error _ _ _ _ _ _ Hl) as (e & He & ->).
  rewrite (evaluate_errors_config _ rf rf0) in He by congruence.
  apply traced_iteration in H1.
  destruct H1 as (j & b & sx & x & k & sy & ea & eb & Hb & Jj & Hre & _ & Hea & _ & Heb & Hdm & _ & Hn & (Hsp & _) & _).
  apply traced_iteration in H2.
  destruct H2 as (j2 & b2 & sx2 & x2 & k2 & sy2 & ea2 & eb2 & Hb2 & Jj2 & _ & _ & _ & _ & _ & Hdm2 & _).
  rewrite Hsp, Hp, Hm, ?Hd in *. cbn [is_quasi_newton negb orb andb] in *.
  assert (C2 : exists c2, t2 = t1 ++ b2 ++ c2).
  { destruct (ngtb (amax eb2) (amax ea2) && _).
    - destruct Hdm2 as (d & u & _ & _ & _ & ->). eauto.
    - destruct Hdm2 as (_ & _ & ->). eauto. }
  destruct C2 as (c2 & Hc2).
  assert (C1 : exists c1, t1 = t ++ b ++ c1 /\ (j = JReused -> evaluations c1 = 1)).
  { destruct (ngtb (amax eb) (amax ea) && _) eqn:E.
    - destruct Hdm as (d & u & _ & _ & _ & ->). eexists. split; [reflexivity|]. intros ->.
      destruct (jm_compute_at_next (rf_jacobian rf)) eqn:Ef; [now apply eq_sym, computed_not_reused in Jj|].
      unfold approximated_after in E. rewrite Hp, Hm, Ef in E.
      destruct m; [now elim Hsn| |]; cbn in E; rewrite andb_false_r in E; discriminate E.
    - destruct Hdm as (_ & _ & ->). eexists. split; [reflexivity|]. reflexivity. }
  destruct C1 as (c1 & Hc1 & Hev).
  exists j, b, c1, j2, b2, c2. split; [exact Hc1|]. split; [exact Hb|]. split; [exact Hc2|].
  split; [exact Hb2|]. intros Hj. split; [now apply Hev|]. intros Hgt.
  destruct (Hre Hj) as (-> & ->). change (evaluate_errors M rf s = Ret e) in He.
  rewrite He in Hea. injection Hea as <-.
  destruct (jm_compute_at_next (rf_jacobian rf)) eqn:Ef.
  { rewrite Hj in Jj. now apply eq_sym, computed_not_reused in Jj. }
  assert (Ha : approximated_after rf = true).
  { unfold approximated_after. rewrite Hp, Hm, Ef. destruct m; [now elim Hsn|reflexivity|reflexivity]. }
  rewrite Ha in *. cbn [negb] in Hdm. rewrite andb_false_r in Hdm. destruct Hdm as (_ & -> & _).
  rewrite Hgt in Hn. cbn in Hn. rewrite Jj2, Hn. apply computed_not_reused.
Qed.
Print Assumptions C37_update_methods.

(** *** C38 *)

Lemma ltb_irrefl : forall x : f64, nltb x x = false.
Proof.
  intros x. destruct (nltb x x) eqn:E; [|reflexivity]. apply ltb_true_inv in E.
  destruct E as (_ & _ & E). lra.
Qed.

(** Claimed by the log: after "Iteration refused, the jacobian will be recomputed
    at the next iteration" the model is back at the previous iterate. *)
Definition C38_statement : Prop :=
  forall (IF : Inverter f64) St EI EU (M : Model f64 St EI EU) rf0 s0 rf s me rf1 s1 e l,
  fresh rf0 ->
  loop_head M rf0 s0 rf s me ->
  continues rf me = true ->
  iteration M rf s = Ret (rf1, s1, Ok e) ->
  rf_log rf1 = Some (l ++ [LRecompute]) ->
  get_iteratives M s1 = get_iteratives M s.

Definition ends_refused {F} (rf : rootfinder F) : bool :=
  match rf_log rf with
  | Some l => match rev l with LRecompute :: _ => true | _ => false end
  | None => false
  end.
Lemma ends_refused_true : forall F (rf : rootfinder F), ends_refused rf = true ->
  exists l, rf_log rf = Some (l ++ [LRecompute]).
Proof.
  intros F rf H. unfold ends_refused in H. destruct (rf_log rf) as [l|]; [|discriminate H].
  destruct (rev l) as [|[] l'] eqn:E; try discriminate H.
  exists (rev l'). now rewrite <- (rev_involutive l), E.
Qed.

(** The second iteration goes from 1 to a point where the residual is 10; it is
    reported as refused, and the model stays there. *)
Theorem C38_refused_iterate_forgotten_refuted : ~ C38_statement.
Proof.
  intros H.
  assert (H1 : check_iteration C38_model (activate_debug (C38_rf 3)) (scripted_init 1) 1
    (fun rf s _ rf1 s1 _ => ends_refused rf1 &&
       match sc_x s, sc_x s1 with [a], [b] => nltb a b | _, _ => false end) = true)
    by (vm_compute; reflexivity).
  apply check_iteration_true in H1.
  destruct H1 as (rf & s & me & rf1 & s1 & e & Hl & Hc & Hi & Hp).
  apply andb_prop in Hp. destruct Hp as (H1 & H2). apply ends_refused_true in H1.
  destruct H1 as (l & H1).
  assert (C : sc_x s1 = sc_x s).
  { apply (H _ _ _ _ C38_model (activate_debug (C38_rf 3)) (scripted_init 1) rf s me rf1 s1 e l); auto.
    exists (params6 1 3 broy1 true), [Fz 0], (jac_its 1), (abs_conf 1), (C38_rf 3).
    split; [reflexivity|right; reflexivity]. }
  rewrite C in H2. destruct (sc_x s) as [|a [|b v]]; try discriminate H2.
  rewrite ltb_irrefl in H2. discriminate H2.
Qed.
Print Assumptions C38_refused_iterate_forgotten_refuted.

(** What happens for every model: a refused iterate stays in the model. The
    state after the iteration is the evaluation of the proposed point, and the
    next iteration starts from there with a computed jacobian. *)
Theorem C38_refused_iterate_kept :
  forall F (NF : Num F) (IF : Inverter F) St EI EU (M : Model F St EI EU) rf0 s0 rf s me rf1 s1 e l,
  rf_debug rf0 = true ->
  loop_head M rf0 s0 rf s me ->
  iteration M rf s = Ret (rf1, s1, Ok e) ->
  rf_log rf1 = Some (l ++ [LRecompute]) ->
  exists rfa g r,
    compute_step M (set_iter rf (S (rf_iter rf))) s = Ret (rfa, s, Ok g) /\
    evaluate M (set_iteratives M s g) = Ret (s1, r) /\
    ngtb (amax e) me = true /\
    jm_compute_at_next (rf_jacobian rf1) = true.
Proof.
  intros F NF IF St EI EU M rf0 s0 rf s me rf1 s1 e l Hdb Hl H Hlog.
  assert (Hc := loop_head_config _ _ _ _ _ _ Hl). destruct Hc as (Hp & _ & _ & Hrc & Hde).
  destruct (loop_head_error _ _ _ _ _ _ Hl) as (e' & He' & ->).
  rewrite (evaluate_errors_config _ rf rf0) in He' by congruence.
  unfold iteration in H. minv1 H. rename E into Es. rename a0 into rfa, b0 into sa.
  destruct b as [g|x]; [|discriminate H]. unfold update_model in H.
  minv1 H. rename E into Ea. rename x into ea. minv1 H. rename E into Eev. rename a into sb, b into r.
  assert (Hfin : exists v, finish_update M (set_valid rfa v) sb ea (get_iteratives M sa) g = Ret (rf1, s1, e)).
  { destruct r as [u|[y|y]]; [| |discriminate H]; minv1 H; injection H as <- <- <-; eauto. }
  destruct Hfin as (v & Hf). clear H.
  assert (Hs := Es). apply compute_step_inv in Hs. destruct Hs as (Hsj & _).
  apply same_but_jac_fields in Hsj. destruct Hsj as ((Hpa & _ & _ & Hra & Hda) & _).
  cbn [set_iter rf_parameters rf_residuals_config rf_debug] in *.
  unfold finish_update in Hf. minv1 Hf. rename E into Een. rename x into en. minv1 Hf. rename E into Elog. rename x into rfb.
  assert (Hlogb : exists lb en0, rf_log rfb = Some (lb ++ [en0]) /\ en0 <> LRecompute).
  { unfold when_debug in Elog. cbn [set_valid rf_debug] in Elog. rewrite Hda, Hde, Hdb in Elog.
    unfold iteration_to_log in Elog. minv1 Elog. unfold write_log in Elog. minv1 Elog.
    injection Elog as <-. cbn. do 2 eexists. split; [reflexivity|discriminate]. }
  assert (Hsb : same_but_log (set_valid rfa v) rfb).
  { eapply same_but_log_when; [|exact Elog]. intros rfx Hx. eapply same_but_log_iter; exact Hx. }
  apply same_but_log_fields in Hsb.
  destruct Hsb as ((Hpb & _ & _ & Hrb & Hdbb) & _ & Hjb & _ & _).
  cbn [set_valid rf_parameters rf_residuals_config rf_jacobian rf_debug] in *.
  minv1 Hf. rename E into Ed. minv1 Hf. rename E into Est. injection Hf as <- <- <-.
  rename a0 into rfc, b0 into sc, b into ec, x into rfd.
  assert (Hst : rf_log rfd = rf_log rfc /\ rf_jacobian rfd = rf_jacobian rfc).
  { apply store_steps_inv in Est. destruct Est as [->|(ds & dy & _ & _ & ->)]; split; reflexivity. }
  destruct Hst as (Hst & Hsj2). rewrite Hst in Hlog.
  assert (Hnot : forall z : rootfinder F, rf_log z = rf_log rfb -> rf_log z <> Some (l ++ [LRecompute])).
  { intros z -> Hz. destruct Hlogb as (lb & en0 & Hb & Hne). rewrite Hb in Hz. injection Hz as Hz.
    apply app_inj_tail in Hz. destruct Hz as (_ & Hz). now elim Hne. }
  destruct (sp_damping (rf_parameters rfb)) eqn:Edm.
  2:{ injection Ed as <- <- <-. now elim (Hnot rfb eq_refl). }
  unfold damping in Ed. destruct (ngtb (amax en) (amax ea)) eqn:Egt.
  2:{ injection Ed as <- <- <-. now elim (Hnot rfb eq_refl). }
  destruct (is_quasi_newton _ && jm_approximated (rf_jacobian rfb)) eqn:Eap.
  2:{ minv1 Ed. clear E. minv1 Ed. clear E. destruct b as [u|y]; [|discriminate Ed].
      minv1 Ed. clear E. minv1 Ed. rename E into Ew.
      injection Ed as <- <- <-. exfalso. unfold when_debug in Ew.
      replace (rf_debug rfb) with true in Ew by congruence.
      unfold damping_to_log in Ew. minv1 Ew. unfold write_log in Ew. minv1 Ew. injection Ew as <-.
      cbn in Hlog. injection Hlog as Hz. apply app_inj_tail in Hz. destruct Hz as (_ & Hz). discriminate Hz. }
  apply andb_prop in Eap. destruct Eap as (Eq & Eap).
  minv1 Ed. rename E into Ew. injection Ed as <- <- <-.
  assert (Hfl : jm_compute_at_next (rf_jacobian rf) = false).
  { destruct (jm_compute_at_next (rf_jacobian rf)) eqn:Ef; [|reflexivity].
    apply compute_step_flags in Es. destruct Es as (_ & Ha & _). rewrite Hjb, Ha in Eap.
    unfold approximated_after in Eap. cbn [set_iter rf_parameters rf_jacobian] in Eap.
    rewrite Ef in Eap. destruct (sp_resolution_method (rf_parameters rf)); discriminate Eap. }
  assert (Hsa : sa = s).
  { eapply compute_step_reused; [exact Es| |exact Hfl]. cbn [set_iter rf_parameters].
    rewrite <- Hpa, <- Hpb. exact Eq. }
  subst sa. exists rfa, g, r. split; [first [exact Es|reflexivity]|]. split; [first [exact Eev|reflexivity]|].
  rewrite (evaluate_errors_config _ rf rfa) in Ea by congruence. rewrite He' in Ea. injection Ea as <-.
  split; [exact Egt|]. rewrite Hsj2.
  assert (Hw : same_but_log (set_jacobian rfb (force_jacobian_computation (rf_jacobian rfb))) x).
  { eapply same_but_log_when; [|exact Ew]. intros rfx Hx. eapply same_but_log_recompute; exact Hx. }
  apply same_but_log_fields in Hw. destruct Hw as (_ & _ & -> & _). reflexivity.
Qed.
Print Assumptions C38_refused_iterate_kept.

(** *** C41 *)

(** The log of a new solver: header, parameters, the record of the initial
    evaluation with number 0, and one record per iteration, numbered from 1; each
    record holds the iteratives, residuals and stopping residuals of the model
    after the evaluation of the proposed point, and of the damped one if any
    ([records], [iteration_record] and [tail_record] in LogFacts.v). *)
Theorem C41_log :
  forall F (NF : Num F) (IF : Inverter F) St EI EU (M : Model F St EI EU)
    p guess its conf rf0 s0 rf' s' r,
  rootfinder_new p guess its conf = Ret rf0 ->
  solve M (activate_debug rf0) s0 = Ret (rf', s', r) ->
  r = Ok tt \/ r = Err NonConvergenceError \/ r = Err FinalEvaluationError ->
  exists s1 r1 v0 e0 rest,
    evaluate M (set_iteratives M s0 guess) = Ret (s1, r1) /\
    get_residuals M s1 = Ret v0 /\ evaluate_stopping_residuals conf v0 = Ret e0 /\
    rf_log rf' = Some (LHeader :: LParameters p its conf
                         :: LIteration 0 (get_iteratives M s1) v0 e0 :: rest) /\
    records M conf 0 (rf_iter rf') s' rest.
Proof.
  intros F NF IF St EI EU M p guess its conf rf0 s0 rf' s' r Hn H Hr.
  assert (Hrf : rf0 = mkRootFinder p guess its conf false 0 None jacobian_matrix_new None None None true).
  { unfold rootfinder_new in Hn. repeat (destruct (negb _) in Hn; [discriminate Hn|]). now injection Hn. }
  apply solve_heads in H.
  destruct H as [(x & -> & _)|[(me & Hl & _)|(rf & s & me & x & _ & _ & Hit & ->)]].
  - destruct Hr as [Hr|[Hr|Hr]]; discriminate Hr.
  - apply loop_head_log in Hl; [|now rewrite Hrf].
    destruct Hl as (l & x0 & v0 & e0 & rest & Hl & Hlog & (s & r1 & Hev & Hx & Hv & He) & Hrec).
    rewrite Hrf in *. cbn in Hl, Hlog, Hev, He, Hrec. injection Hl as <-. subst x0.
    exists s, r1, v0, e0, rest. auto.
  - apply iteration_no_verdict in Hit. destruct Hit as (N1 & N2).
    destruct Hr as [Hr|[Hr|Hr]]; congruence.
Qed.
Print Assumptions C41_log.

(** The log of three iterations, with a refusal in the second one. *)
Example C41_case :
  check_run (solve C38_model (activate_debug (C38_rf 3)) (scripted_init 1))
    (fun rf s r => match rf_log rf with
       | Some [LHeader; LParameters _ _ _; LIteration 0 [a] _ [ea]; LJacobian _; LIteration 1 [b] _ [eb];
               LJacobian _; LIteration 2 [c] _ [ec]; LRecompute; LJacobian _; LIteration 3 [d] _ [ed]] =>
           neqb a (Fz 0) && neqb ea (Fz 1) && neqb b (Fz 1) && neqb (nadd eb eb) (Fz 1) && neqb ec (Fz 10)
       | _ => false
       end) = true.
Proof. vm_compute. reflexivity. Qed.

(** *** C34 *)

(** As documented: the vector y of the updates is the difference of the residuals
    F used in the iterations (with an analytical jacobian, so that the model is
    not moved by the finite differences). *)
Definition C34_statement : Prop :=
  forall (IF : Inverter f64) St EI EU (M : Model f64 St EI EU) rf0 s0 rf s me rf1 s1 e v v1 f f1 y,
  fresh rf0 ->
  (forall s, jacobian_provided M s = true) ->
  stopping_criterias (rf_residuals_config rf0) = update_methods (rf_residuals_config rf0) ->
  loop_head M rf0 s0 rf s me ->
  continues rf me = true ->
  iteration M rf s = Ret (rf1, s1, Ok e) ->
  get_residuals M s = Ret v -> evaluate_update_residuals (rf_residuals_config rf0) v = Ret f ->
  get_residuals M s1 = Ret v1 -> evaluate_update_residuals (rf_residuals_config rf0) v1 = Ret f1 ->
  rf_residuals_step rf1 = Some y ->
  vsub f1 f = Ret y.

(** x^2 - 2 from 1: the residual goes from -1 to 0.25, and y is -0.75. *)
Theorem C34_documented_pair_refuted : ~ C34_statement.
Proof.
  intros H.
  set (M := scripted_model 1 sq2 (Some sq2_jac) always_ok always_ok).
  assert (H1 : check_iteration M (sq2_an 50 broy1 false) (scripted_init 1) 0
    (fun rf s _ rf1 s1 _ =>
       match sc_left s, sc_left s1, rf_residuals_step rf1 with
       | [a], [b], Some [y] => nltb y (nsub (nsub b n0) (nsub a n0))
       | _, _, _ => false
       end) = true) by (vm_compute; reflexivity).
  apply check_iteration_true in H1.
  destruct H1 as (rf & s & me & rf1 & s1 & e & Hl & Hc & Hi & Hp).
  destruct (sc_left s) as [|a [|? ?]] eqn:Ea; try discriminate Hp.
  destruct (sc_left s1) as [|b [|? ?]] eqn:Eb; try discriminate Hp.
  destruct (rf_residuals_step rf1) as [[|y [|? ?]]|] eqn:Ey; try discriminate Hp.
  assert (C : vsub [nsub b n0] [nsub a n0] = Ret [y]).
  { apply (H _ _ _ _ M (sq2_an 50 broy1 false) (scripted_init 1) rf s me rf1 s1 e
      (mkResidualsValues [a] [n0]) (mkResidualsValues [b] [n0])); auto.
    - apply sample_fresh; reflexivity.
    - cbn. rewrite Ea. reflexivity.
    - cbn. rewrite Eb. reflexivity. }
  unfold vsub in C. cbn [length Nat.eqb vsub_raw map2] in C. injection C as C.
  change (nsub (nsub b n0) (nsub a n0) = y) in C. rewrite C, ltb_irrefl in Hp. discriminate Hp.
Qed.
Print Assumptions C34_documented_pair_refuted.

(** The pair that is stored, for every model: s is the difference between the
    iterate after the iteration and the one in the model once the jacobian is
    known ([s1], the last perturbed point when it was computed by finite
    differences); y and c are the difference of the stopping residuals, which are
    absolute values, in these two states, and their last value. Methods that keep
    no pair leave the fields unchanged. *)
Theorem C34_stored_pair :
  forall F (NF : Num F) (IF : Inverter F) St EI EU (M : Model F St EI EU) rf s rf' s' e m,
  sp_resolution_method (rf_parameters rf) = QuasiNewton m -> m <> StationaryNewton ->
  iteration M rf s = Ret (rf', s', Ok e) ->
  exists rf1 s1 g v v' e0 ds dy,
    compute_step M (set_iter rf (S (rf_iter rf))) s = Ret (rf1, s1, Ok g) /\
    (jm_compute_at_next (rf_jacobian rf) = false -> s1 = s) /\
    get_residuals M s1 = Ret v /\ evaluate_stopping_residuals (rf_residuals_config rf) v = Ret e0 /\
    get_residuals M s' = Ret v' /\ evaluate_stopping_residuals (rf_residuals_config rf) v' = Ret e /\
    vsub (get_iteratives M s') (get_iteratives M s1) = Ret ds /\
    vsub e e0 = Ret dy /\
    rf_iteratives_step rf' = Some ds /\ rf_residuals_step rf' = Some dy /\
    rf_residuals_current rf' = Some e.
Proof.
  intros F NF IF St EI EU M rf s rf' s' e m Hm Hsn H.
  assert (Hf := iteration_fields _ _ _ _ _ _ H). destruct Hf as ((_ & _ & _ & Hrc & _) & _ & He).
  specialize (He e eq_refl). rewrite (evaluate_errors_config _ rf rf') in He by congruence.
  apply iteration_full in H.
  destruct H as (rf1 & s1 & g & s2 & r2 & e0 & e1 & Hs & _ & H0 & _ & _ & _ & _ & Hp & _).
  rewrite Hm in Hp. assert (Hk : keeps_no_pair (QuasiNewton m) = false) by (destruct m; [now elim Hsn|reflexivity|reflexivity]).
  rewrite Hk in Hp. destruct Hp as (ds & dy & P1 & P2 & P3 & P4 & P5).
  unfold evaluate_errors in H0, He. minv1 H0. rename E into G0. rename x into v. minv1 He. rename E into G1. rename x into v'.
  exists rf1, s1, g, v, v', e0, ds, dy. split; [exact Hs|]. split; [|auto 10].
  intros Hfl. eapply compute_step_reused; [exact Hs| |exact Hfl]. cbn [set_iter rf_parameters]. now rewrite Hm.
Qed.
Print Assumptions C34_stored_pair.
