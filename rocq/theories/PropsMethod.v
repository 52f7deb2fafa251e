(** What an iteration does with each method: C17, C34, C35, C36, C37, C38, C41. *)
From Coq Require Import Reals.
From Flocq Require Import Core BinarySingleNaN.
From Verif Require Import Base Num Linalg Residuals Iteratives UserModel Jacobian Solver
  F64 F64Facts Tactics FlowFacts FlagFacts Trace TraceFacts SimFacts Spec Fresh ResidualFacts
  VerdictFacts CountFacts Samples Reach LogFacts StepFacts PropsVerdict PropsFlow.
Open Scope nat_scope.

(** *** C17 *)

(** The jacobian that the next iteration of [rf] inverts in the state [s], and
    the state [s1] of the model once it is known: asked to the model, computed by
    finite differences, or updated from the previous one. *)
Inductive next_jacobian {F} {NF : Num F} {St EI EU} (M : Model F St EI EU)
  (rf : rootfinder F) (s s1 : St) (m : mat F) : Prop :=
| nj_analytic : forall v jv,
    sp_resolution_method (rf_parameters rf) = NewtonRaphson \/
      jm_compute_at_next (rf_jacobian rf) = true ->
    jacobian_provided M s = true ->
    get_residuals M s = Ret v -> get_jacobian M s = Ret (s1, Ok jv) ->
    normalize jv v (update_methods (rf_residuals_config rf)) = Ret m ->
    next_jacobian M rf s s1 m
| nj_finite : forall p,
    sp_resolution_method (rf_parameters rf) = NewtonRaphson \/
      jm_compute_at_next (rf_jacobian rf) = true ->
    jacobian_provided M s = false ->
    compute_perturbations (rf_iters_params rf) (get_iteratives M s) = Ret p ->
    compute_jacobian_from_finite_difference M s p (rf_residuals_config rf) = Ret (s1, Ok m) ->
    next_jacobian M rf s s1 m
| nj_update : forall um J ds dy c,
    sp_resolution_method (rf_parameters rf) = QuasiNewton (JacobianUpdate um) ->
    jm_compute_at_next (rf_jacobian rf) = false ->
    jm_matrix (rf_jacobian rf) = Some J ->
    rf_iteratives_step rf = Some ds -> rf_residuals_step rf = Some dy ->
    rf_residuals_current rf = Some c ->
    length ds = length J -> length dy = length J ->
    (um = BroydenFirstMethod /\ m = broyden_first_jac J ds dy \/
     um = BroydenSecondMethod /\ m = broyden_second_jac J ds dy \/
     um = GreenstadtFirstMethod /\ m = quasi_method_jac J ds dy c /\ length c = length J \/
     um = GreenstadtSecondMethod /\
       exists H, jm_inverse (rf_jacobian rf) = Some H /\ length H = length J /\
         m = greenstadt_second_jac J ds dy (mat_vec H dy)) ->
    s1 = s ->
    next_jacobian M rf s s1 m.

Section C17.
Context {F : Type} {NF : Num F} {IF : Inverter F} {St EI EU : Type} (M : Model F St EI EU).

Definition log_ok (rf : rootfinder F) : Prop :=
  rf_debug rf = true -> exists l, rf_log rf = Some l.

Lemma when_jac_total : forall rf : rootfinder F, log_ok rf ->
  exists rf', when_debug rf (jac_to_log rf) = Ret rf'.
Proof.
  intros rf H. unfold when_debug. destruct (rf_debug rf) eqn:E; [|eauto].
  destruct (H E) as (l & Hl). unfold jac_to_log, write_log. rewrite Hl. cbn. eauto.
Qed.

Lemma compute_jac_not_invertible : forall (rf : rootfinder F) s s1 m,
  (exists v jv, jacobian_provided M s = true /\ get_residuals M s = Ret v /\
     get_jacobian M s = Ret (s1, Ok jv) /\
     normalize jv v (update_methods (rf_residuals_config rf)) = Ret m) \/
  (exists p, jacobian_provided M s = false /\
     compute_perturbations (rf_iters_params rf) (get_iteratives M s) = Ret p /\
     compute_jacobian_from_finite_difference M s p (rf_residuals_config rf) = Ret (s1, Ok m)) ->
  try_inverse m = None ->
  exists j, compute_jac M rf s = Ret (set_jacobian rf j, s1, Err InvalidJacobianInverseError).
Proof.
  intros rf s s1 m H Hinv. unfold compute_jac.
  destruct H as [(v & jv & -> & Hv & Hj & Hn)|(p & -> & Hp & Hc)].
  - unfold evaluate_jacobian_from_analytical_function. rewrite Hv. cbn [bind]. rewrite Hj.
    cbn [bind]. rewrite Hn. cbn [bind]. unfold update_jacobian_with_exact_value, update_jacobian.
    rewrite Hinv. cbn. eauto.
  - unfold evaluate_jacobian_from_finite_difference. rewrite Hp. cbn [bind]. rewrite Hc.
    cbn [bind]. unfold update_jacobian_with_exact_value, update_jacobian. rewrite Hinv. cbn. eauto.
Qed.

Lemma step_not_invertible : forall (rf : rootfinder F) s s1 m, log_ok rf ->
  next_jacobian M rf s s1 m -> try_inverse m = None ->
  exists rf', compute_step M rf s = Ret (rf', s1, Err InvalidJacobianInverseError).
Proof.
  intros rf s s1 m Hlog H Hinv. unfold compute_step.
  assert (Hcomputed : (sp_resolution_method (rf_parameters rf) = NewtonRaphson \/
      jm_compute_at_next (rf_jacobian rf) = true) ->
    (exists j, compute_jac M rf s = Ret (set_jacobian rf j, s1, Err InvalidJacobianInverseError)) ->
    exists rf', match sp_resolution_method (rf_parameters rf) with
     | NewtonRaphson => compute_newton_raphson_step M rf s
     | QuasiNewton m0 => compute_quasi_newton_step M rf s m0
     end = Ret (rf', s1, Err InvalidJacobianInverseError)).
  { intros Hm (j & Hj).
    destruct (when_jac_total (set_jacobian rf j)) as (rf2 & H2); [exact Hlog|].
    destruct (sp_resolution_method (rf_parameters rf)) as [|qm].
    - unfold compute_newton_raphson_step. rewrite Hj. cbn [bind]. rewrite H2. cbn. eauto.
    - destruct Hm as [Hm|Hm]; [discriminate Hm|].
      unfold compute_quasi_newton_step, evaluate_jacobian_quasi_newton_step.
      rewrite Hm, Hj. cbn [bind]. rewrite H2. cbn. eauto. }
  destruct H as [v jv Hm Hp Hv Hj Hn|p Hm Hp Hpert Hc|um J ds dy c Hm Hf HJ Hs Hy Hc L1 L2 Hum ->].
  - apply Hcomputed; [exact Hm|]. eapply compute_jac_not_invertible; [left; eauto 10|exact Hinv].
  - apply Hcomputed; [exact Hm|]. eapply compute_jac_not_invertible; [right; eauto 10|exact Hinv].
  - rewrite Hm. unfold compute_quasi_newton_step, evaluate_jacobian_quasi_newton_step. rewrite Hf.
    unfold approximate_step. rewrite Hs, Hy, Hc. cbn [unwrap bind].
    assert (Ha : exists j, approximate_jacobian (rf_jacobian rf) um ds dy c = Ret (j, false)).
    { unfold approximate_jacobian, same_size, update_jacobian_with_approximated_value, update_jacobian.
      rewrite HJ.
      destruct Hum as [(-> & ->)|[(-> & ->)|[(-> & -> & L3)|(-> & H & HH & LH & ->)]]]; cbn [unwrap bind].
      1-3: rewrite ?L1, ?L2, ?L3, !Nat.eqb_refl; cbn [andb guard_shape bind]; rewrite Hinv; eauto.
      rewrite HH. cbn [unwrap bind]. unfold mat_vec_chk. rewrite LH, L2, Nat.eqb_refl. cbn [bind].
      assert (Lm : length (mat_vec H dy) = length J) by (unfold mat_vec; now rewrite map_length).
      rewrite Lm, L1, !Nat.eqb_refl. cbn [andb guard_shape bind]. rewrite Hinv. eauto. }
    destruct Ha as (j & ->). cbn [bind]. eauto.
Qed.
End C17.

(** In every resolution, if the jacobian of an iteration has no inverse, [solve]
    returns that error and the model is not updated in that iteration ([s1] is
    its state right after the computation of the jacobian). *)
Theorem C17_not_invertible_is_reported :
  forall F (NF : Num F) (IF : Inverter F) St EI EU (M : Model F St EI EU) rf0 s0 rf s me s1 m,
  loop_head M rf0 s0 rf s me ->
  nltb (sp_tolerance (rf_parameters rf0)) me = true ->
  rf_iter rf < sp_max_iter (rf_parameters rf0) ->
  next_jacobian M rf s s1 m ->
  try_inverse m = None ->
  exists rf', solve M rf0 s0 = Ret (rf', s1, Err (JacobianError InvalidJacobianInverseError)).
Proof.
  intros F NF IF St EI EU M rf0 s0 rf s me s1 m Hl Hgt Hi Hj Hinv.
  assert (Hc := loop_head_config _ _ _ _ _ _ Hl). destruct Hc as (Hp & _).
  assert (Hcont : continues rf me = true).
  { unfold continues, ngtb. rewrite Hp, Hgt. cbn. now apply Nat.ltb_lt. }
  assert (Hlog : log_ok (set_iter rf (S (rf_iter rf))))
    by (intros Hd; exact (loop_head_log_ok M rf0 s0 rf s me Hl Hd)).
  destruct (step_not_invertible M (set_iter rf (S (rf_iter rf))) s s1 m Hlog) as (rf' & Hs);
    [|exact Hinv|].
  { destruct Hj; [eapply nj_analytic|eapply nj_finite|eapply nj_update]; eauto. }
  exists rf'. eapply loop_head_err; [exact Hl|exact Hcont|].
  unfold iteration. rewrite Hs. reflexivity.
Qed.
Print Assumptions C17_not_invertible_is_reported.

(** Conversely that error is returned only for a matrix without inverse. *)
Section C17_converse.
Context {F : Type} {NF : Num F} {IF : Inverter F} {St EI EU : Type} (M : Model F St EI EU).

Lemma compute_jac_inverse_error : forall (rf : rootfinder F) s rf' s',
  compute_jac M rf s = Ret (rf', s', Err InvalidJacobianInverseError) ->
  exists m, try_inverse m = None /\
   ((exists v jv, jacobian_provided M s = true /\ get_residuals M s = Ret v /\
     get_jacobian M s = Ret (s', Ok jv) /\
     normalize jv v (update_methods (rf_residuals_config rf)) = Ret m) \/
    (exists p, jacobian_provided M s = false /\
     compute_perturbations (rf_iters_params rf) (get_iteratives M s) = Ret p /\
     compute_jacobian_from_finite_difference M s p (rf_residuals_config rf) = Ret (s', Ok m))).
Proof.
  intros rf s rf' s' H. apply compute_jac_inv in H. destruct H as (j & r0 & _ & H & Hr).
  destruct (jacobian_provided M s).
  - unfold evaluate_jacobian_from_analytical_function in H. minv1 H. rename E into Ev. minv1 H.
    rename E into Ej. destruct b as [jv|e].
    + minv1 H. rename E into En. unfold update_jacobian_with_exact_value, update_jacobian in H.
      destruct (try_inverse x0) eqn:Ei; injection H as <- <- <-; [discriminate Hr|].
      exists x0. split; [exact Ei|]. left. eauto 10.
    + minv1 H. destruct e; discriminate Hr.
  - unfold evaluate_jacobian_from_finite_difference in H. minv1 H. rename E into Ep. minv1 H.
    rename E into Ec. destruct b as [m|e].
    + unfold update_jacobian_with_exact_value, update_jacobian in H.
      destruct (try_inverse m) eqn:Ei; injection H as <- <- <-; [discriminate Hr|].
      exists m. split; [exact Ei|]. right. eauto 10.
    + minv1 H. destruct e; discriminate Hr.
Qed.

Lemma step_inverse_error : forall (rf : rootfinder F) s rf' s',
  compute_step M rf s = Ret (rf', s', Err InvalidJacobianInverseError) ->
  exists m, next_jacobian M rf s s' m /\ try_inverse m = None.
Proof.
  intros rf s rf' s' H. unfold compute_step in H.
  destruct (sp_resolution_method (rf_parameters rf)) as [|qm] eqn:Em.
  - unfold compute_newton_raphson_step in H. minv1 H. rename E into Ec. minv1 H.
    destruct b as [u|e]; [minv1 H; discriminate H|]. injection H as <- <- ->.
    apply compute_jac_inverse_error in Ec.
    destruct Ec as (m & Hm & [(v & jv & H1 & H2 & H3 & H4)|(p & H1 & H2 & H3)]);
      exists m; (split; [|exact Hm]); [eapply nj_analytic|eapply nj_finite]; eauto.
  - unfold compute_quasi_newton_step in H. minv1 H. rename E into Eq. destruct b as [u|e].
    { minv1 H. discriminate H. }
    injection H as <- <- ->. unfold evaluate_jacobian_quasi_newton_step in Eq.
    destruct (jm_compute_at_next (rf_jacobian rf)) eqn:Ef.
    + minv1 Eq. rename E into Ec. minv1 Eq. injection Eq as _ -> ->.
      apply compute_jac_inverse_error in Ec.
      destruct Ec as (m & Hm & [(v & jv & H1 & H2 & H3 & H4)|(p & H1 & H2 & H3)]);
        exists m; (split; [|exact Hm]); [eapply nj_analytic|eapply nj_finite]; eauto.
    + minv1 Eq. rename E into Ea. destruct b; [minv1 Eq; discriminate Eq|].
      injection Eq as _ ->. unfold approximate_step in Ea. destruct qm as [|um|um].
      * discriminate Ea.
      * destruct (rf_iteratives_step rf) as [ds|] eqn:Es; [|discriminate Ea]. cbn [unwrap bind] in Ea.
        destruct (rf_residuals_step rf) as [dy|] eqn:Ey; [|discriminate Ea]. cbn [unwrap bind] in Ea.
        destruct (rf_residuals_current rf) as [c|] eqn:Ecc; [|discriminate Ea]. cbn [unwrap bind] in Ea.
        destruct (approximate_jacobian (rf_jacobian rf) um ds dy c) as [[j ok]|] eqn:Ej; [|discriminate Ea].
        cbn [bind] in Ea. injection Ea as _ ->.
        unfold approximate_jacobian, same_size in Ej.
        assert (Hfin : forall next, Ret (update_jacobian_with_approximated_value (rf_jacobian rf) next)
           = Ret (j, false) -> try_inverse next = None).
        { intros next Hn. unfold update_jacobian_with_approximated_value, update_jacobian in Hn.
          destruct (try_inverse next); [discriminate Hn|reflexivity]. }
        destruct um.
        1-3: destruct (jm_matrix (rf_jacobian rf)) as [J|] eqn:EJ; [|discriminate Ej]; cbn [unwrap bind] in Ej;
             match type of Ej with context [guard_shape ?b _] => destruct b eqn:Eb end; [|discriminate Ej];
             cbn [guard_shape bind] in Ej; apply Hfin in Ej;
             repeat (apply andb_prop in Eb; destruct Eb as (Eb & ?));
             repeat match goal with H : Nat.eqb _ _ = true |- _ => apply Nat.eqb_eq in H end;
             eexists; (split; [|exact Ej]); eapply nj_update; eauto 10.
        destruct (jm_inverse (rf_jacobian rf)) as [H|] eqn:EH; [|discriminate Ej]. cbn [unwrap bind] in Ej.
        unfold mat_vec_chk in Ej. destruct (Nat.eqb (length H) (length dy)) eqn:E1; [|discriminate Ej].
        cbn [bind] in Ej.
        destruct (jm_matrix (rf_jacobian rf)) as [J|] eqn:EJ; [|discriminate Ej]; cbn [unwrap bind] in Ej.
        match type of Ej with context [guard_shape ?b _] => destruct b eqn:Eb end; [|discriminate Ej].
        cbn [guard_shape bind] in Ej. apply Hfin in Ej.
        repeat (apply andb_prop in Eb; destruct Eb as (Eb & ?)).
        repeat match goal with H : Nat.eqb _ _ = true |- _ => apply Nat.eqb_eq in H end.
        eexists. split; [|exact Ej]. eapply nj_update; eauto.
        right. right. right. split; [reflexivity|]. exists H. repeat split; congruence.
      * minv1 Ea. minv1 Ea. minv1 Ea. minv1 Ea. discriminate Ea.
Qed.
End C17_converse.

Theorem C17_reported_only_then :
  forall F (NF : Num F) (IF : Inverter F) St EI EU (M : Model F St EI EU) rf0 s0 rf' s',
  solve M rf0 s0 = Ret (rf', s', Err (JacobianError InvalidJacobianInverseError)) ->
  exists rf s me m, loop_head M rf0 s0 rf s me /\ next_jacobian M rf s s' m /\ try_inverse m = None.
Proof.
  intros F NF IF St EI EU M rf0 s0 rf' s' H. apply solve_heads in H.
  destruct H as [(x & [=] & _)|[(me & _ & _ & Hv)|(rf & s & me & x & Hl & _ & Hit & [= <-])]].
  { unfold verdict in Hv. destruct (ngtb _ _); [discriminate Hv|].
    destruct (rf_valid_last rf'); discriminate Hv. }
  apply iteration_inv in Hit. destruct Hit as (rf1 & s1 & r1 & Hs & Hit). destruct r1 as [g|e].
  - apply update_model_inv in Hit.
    destruct Hit as (_ & _ & _ & _ & _ & [(y & _ & _ & _ & [=])|(en & [=] & _)]).
  - destruct Hit as (-> & -> & [= <-]). apply step_inverse_error in Hs.
    destruct Hs as (m & Hj & Hm). exists rf, s, me, m. split; [exact Hl|]. split; [|exact Hm].
    destruct Hj; [eapply nj_analytic|eapply nj_finite|eapply nj_update]; eauto.
Qed.
Print Assumptions C17_reported_only_then.

(** The second iteration has a zero jacobian. *)
Example C17_case :
  check_run (solve (traced (scripted_model 1 (fun x => match x with [a] => [nadd (nmul a a) (Fz 1)] | _ => [] end)
        (Some (fun x => [[nmul (Fz 2) (hd n0 x)]])) always_ok always_ok))
      (sq2_an 50 NewtonRaphson false) (scripted_init 1, []))
    (fun rf p r => match r with Err (JacobianError InvalidJacobianInverseError) => true | _ => false end
       && Nat.eqb (rf_iter rf) 2 && Nat.eqb (evaluations (snd p)) 2) = true.
Proof. vm_compute. reflexivity. Qed.
