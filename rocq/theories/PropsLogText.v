(** C63, C64: what the log says of the jacobian. *)
From Coq Require Import Reals.
From Verif Require Import Base Num Linalg Residuals Iteratives UserModel Jacobian Solver Trace F64 Tactics Samples
  FlowFacts LogFacts Reach RNum LuFacts PropsQuasi Text Display.
Open Scope string_scope.

Section Truth.
Context {F : Type} {NF : Num F} {IF : Inverter F}.
Context {St EI EU : Type} (M : Model F St EI EU).

(** A pair is coherent when its inverse is the computed inverse of its matrix,
    if it has a matrix. *)
Definition coherent (j : jacobian_matrix F) : Prop :=
  forall m, jm_matrix j = Some m -> exists inv, jm_inverse j = Some inv /\ try_inverse m = Some inv.
Definition true_entry (e : log_entry F) : Prop :=
  match e with LJacobian j => coherent j | _ => True end.
Definition truthful (rf : rootfinder F) : Prop :=
  coherent (rf_jacobian rf) /\ forall l, rf_log rf = Some l -> Forall true_entry l.

Lemma coherent_update j m j' ok : update_jacobian j m = (j', ok) -> coherent j'.
Proof.
  unfold update_jacobian; destruct (try_inverse m) as [inv|] eqn:E; intros H; injection H as <- _;
    intros m' H'; [|discriminate H']; injection H' as <-; exists inv; auto.
Qed.
Lemma coherent_force j : coherent j -> coherent (force_jacobian_computation j).
Proof. intros H m; exact (H m). Qed.

Lemma truthful_jac rf j : truthful rf -> coherent j -> truthful (set_jacobian rf j).
Proof. intros [_ H] C; split; [exact C|exact H]. Qed.
Lemma truthful_write rf e rf' : truthful rf -> true_entry e -> write_log rf e = Ret rf' -> truthful rf'.
Proof.
  intros [C H] T W; apply write_log_inv in W; destruct W as (l & L & ->); split; [exact C|].
  cbn; intros l' E; injection E as <-; apply Forall_app; auto.
Qed.
Lemma truthful_when rf k rf' : truthful rf -> (forall rf1, k = Ret rf1 -> truthful rf1) ->
  when_debug rf k = Ret rf' -> truthful rf'.
Proof.
  intros T H; unfold when_debug; destruct (rf_debug rf); [apply H|intros E; injection E as <-; exact T].
Qed.
Lemma truthful_jac_to_log rf rf' : truthful rf -> when_debug rf (jac_to_log rf) = Ret rf' -> truthful rf'.
Proof.
  intros T; apply truthful_when; [exact T|]; intros rf1; apply truthful_write; [exact T|apply T].
Qed.

Lemma truthful_compute_jac rf s rf' s' r : truthful rf ->
  compute_jac M rf s = Ret (rf', s', r) -> truthful rf'.
Proof.
  intros T H; apply compute_jac_inv in H; destruct H as (j & r0 & -> & H & _).
  apply truthful_jac; [exact T|]; destruct (jacobian_provided M s).
  - unfold evaluate_jacobian_from_analytical_function in H; minv1 H; minv1 H; destruct b as [jv|e].
    + minv1 H; unfold update_jacobian_with_exact_value in H.
      destruct (update_jacobian _ _) as [j1 ok] eqn:U; injection H as <- _ _; apply (coherent_update _ _ _ _ U).
    + injection H as <- _ _; intros m Hm; discriminate Hm.
  - unfold evaluate_jacobian_from_finite_difference in H; minv1 H; minv1 H; destruct b as [m|e].
    + unfold update_jacobian_with_exact_value in H.
      destruct (update_jacobian _ _) as [j1 ok] eqn:U; injection H as <- _ _; apply (coherent_update _ _ _ _ U).
    + injection H as <- _ _; apply T.
Qed.
Lemma truthful_approximate rf m rf' ok : truthful rf -> approximate_step rf m = Ret (rf', ok) -> truthful rf'.
Proof.
  intros T H; destruct m as [|u|u]; cbn [approximate_step] in H.
  - injection H as <- _; exact T.
  - minv1 H; minv1 H; minv1 H; minv1 H; injection H as <- _; apply truthful_jac; [exact T|].
    match goal with E : approximate_jacobian _ _ _ _ _ = _ |- _ => unfold approximate_jacobian in E;
      minv1 E; unfold update_jacobian_with_approximated_value in E; injection E as E;
      apply (coherent_update _ _ _ _ E) end.
  - minv1 H; minv1 H; minv1 H; minv1 H; injection H as <- _; apply truthful_jac; [exact T|].
    match goal with E : approximate_inv_jacobian _ _ _ _ _ = _ |- _ => unfold approximate_inv_jacobian in E;
      minv1 E; minv1 E; injection E as <-; intros m Hm; discriminate Hm end.
Qed.
Lemma truthful_step rf s rf' s' r : truthful rf -> compute_step M rf s = Ret (rf', s', r) -> truthful rf'.
Proof.
  intros T H; unfold compute_step in H; destruct (sp_resolution_method (rf_parameters rf)) as [|m].
  - unfold compute_newton_raphson_step in H; minv1 H; minv1 H.
    match goal with X : when_debug _ _ = Ret ?z |- _ => assert (T2 : truthful z);
      [eapply truthful_jac_to_log; [|exact X]; eapply truthful_compute_jac; eassumption|] end.
    destruct b; [minv1 H|]; injection H as <- _ _; exact T2.
  - unfold compute_quasi_newton_step in H; minv1 H.
    assert (T2 : truthful a0).
    { unfold evaluate_jacobian_quasi_newton_step in E; destruct (jm_compute_at_next _).
      - minv1 E; minv1 E; injection E as <- _ _.
        eapply truthful_jac_to_log; [|eassumption]; eapply truthful_compute_jac; eassumption.
      - minv1 E.
        match goal with X : approximate_step _ _ = Ret (?a, _) |- _ =>
          assert (TA : truthful a) by (eapply truthful_approximate; eassumption) end.
        match type of E with (if ?b then _ else _) = _ => destruct b end.
        + minv1 E; injection E as <- _ _; eapply truthful_jac_to_log; eassumption.
        + injection E as <- _ _; exact TA. }
    destruct b; [minv1 H|]; injection H as <- _ _; exact T2.
Qed.
Lemma truthful_log_iteration rf s e rf' : truthful rf ->
  iteration_to_log M rf s e = Ret rf' -> truthful rf'.
Proof. intros T H; unfold iteration_to_log in H; minv1 H; eapply truthful_write; [exact T| |exact H]; exact I. Qed.
Lemma truthful_finish rf s e cur prop rf' s' en : truthful rf ->
  finish_update M rf s e cur prop = Ret (rf', s', en) -> truthful rf'.
Proof.
  intros T H; unfold finish_update in H; minv1 H; minv1 H.
  match goal with X : when_debug _ _ = Ret ?z |- _ => assert (T1 : truthful z) end.
  { eapply truthful_when; [exact T| |eassumption]; intros rf1; apply truthful_log_iteration, T. }
  minv1 H.
  match goal with X : (if _ then damping _ _ _ _ _ _ _ else _) = Ret (?z, _, _) |- _ => assert (T2 : truthful z) end.
  { match goal with X : (if _ then damping _ _ _ _ _ _ _ else _) = _ |- _ => rename X into D end.
    destruct (sp_damping _); [|injection D as <- _ _; exact T1].
    unfold damping in D; minv1 D; [|injection D as <- _ _; exact T1].
    minv1 D.
    - minv1 D; injection D as <- _ _.
      eapply truthful_when; [| |eassumption]; [apply truthful_jac; [exact T1|apply coherent_force, T1]|].
      intros rf1; apply truthful_write; [|exact I]; apply truthful_jac; [exact T1|apply coherent_force, T1].
    - minv1 D; minv1 D; minv1 D; minv1 D; minv1 D; injection D as <- _ _.
      eapply truthful_when; [exact T1| |eassumption]; intros rf1 W; unfold damping_to_log in W; minv1 W.
      eapply truthful_write; [exact T1| |exact W]; exact I. }
  minv1 H; injection H as <- _ _.
  match goal with X : store_steps _ _ _ _ _ _ = _ |- _ => apply store_steps_inv in X;
    destruct X as [->|(ds & dy & _ & _ & ->)] end; [exact T2|].
  split; apply T2.
Qed.
Lemma truthful_iteration rf s rf' s' r : truthful rf ->
  iteration M rf s = Ret (rf', s', r) -> truthful rf'.
Proof.
  intros T H; apply iteration_inv in H; destruct H as (rf1 & s1 & r1 & Hs & H).
  assert (T1 : truthful rf1) by (eapply truthful_step; [|exact Hs]; exact T).
  destruct r1 as [g|e]; [|destruct H as (-> & _ & _); exact T1].
  apply update_model_inv in H; destruct H as (e & s2 & r2 & _ & _ & [(x & _ & -> & _)|(en & _ & _ & H)]);
    [exact T1|].
  eapply truthful_finish; [|exact H]; exact T1.
Qed.
Lemma truthful_iterate fuel : forall rf s me rf' s' r, truthful rf ->
  iterate M fuel rf s me = Ret (rf', s', r) -> truthful rf'.
Proof.
  induction fuel as [|fuel IH]; intros rf s me rf' s' r T H; cbn [iterate] in H; [discriminate H|].
  minv1 H; [|injection H as <- _ _; exact T].
  minv1 H.
  match goal with X : iteration _ _ _ = Ret (?z, _, _) |- _ => assert (T1 : truthful z) by (eapply truthful_iteration; eassumption) end.
  destruct b; [eapply IH; eassumption|injection H as <- _ _; exact T1].
Qed.

(** C63: whenever the log shows a matrix "up to date with its inverse", the
    inverse shown is the one computed from that matrix; for any sequence of
    solves of a new solver. *)
Theorem C63_solve rf s rf' s' r : truthful rf -> solve M rf s = Ret (rf', s', r) -> truthful rf'.
Proof.
  intros T H; apply solve_inv in H; destruct H as (s1 & r1 & _ & [(x & _ & -> & _)|(_ & H)]); [exact T|].
  unfold solve_from in H; minv1 H; minv1 H; minv1 H; injection H as <- _ _.
  eapply truthful_iterate; [|eassumption].
  eapply truthful_when; [exact T| |eassumption]; intros rf1 W; minv1 W.
  eapply truthful_log_iteration; [|exact W].
  match goal with X : parameters_to_log _ = Ret _ |- _ => unfold parameters_to_log in X; minv1 X; minv1 X;
    eapply truthful_write; [exact T| |exact X]; exact I end.
Qed.
Theorem C63_new p g its c rf : rootfinder_new p g its c = Ret rf -> truthful (activate_debug rf).
Proof.
  unfold rootfinder_new; intros H; minv H;
    (split; [intros m Hm; discriminate Hm|intros l Hl; injection Hl as <-; repeat constructor]).
Qed.
End Truth.

(** In exact arithmetic the inverse shown is the inverse. *)
Theorem C63_exact n St EI EU (M : Model R St EI EU) rf s rf' s' r l j m inv :
  truthful (IF := lu_inverse) rf -> solve (IF := lu_inverse) M rf s = Ret (rf', s', r) ->
  rf_log rf' = Some l -> In (LJacobian j) l ->
  jm_matrix j = Some m -> jm_inverse j = Some inv -> is_mat n m -> inverse_of n m inv.
Proof.
  intros T H L I J K Q; apply C63_solve in H; [|exact T].
  destruct H as [_ H]; specialize (H l L); rewrite Forall_forall in H; specialize (H _ I m J).
  destruct H as (inv' & K' & E); rewrite K in K'; injection K' as <-.
  change (lu_inverse m = Some inv) in E; apply (lu_inverse_exact n) in E; [|exact Q].
  destruct E as (Q' & P & P'); apply mul_inverse_of; assumption.
Qed.
(** The words of the text. *)
Theorem C63_text (show : f64 -> string) (j : jacobian_matrix f64) :
  exists t, display_jacobian show j =
    "Jacobian matrix" ++ nl ++ "=================" ++ nl ++ nl ++
    (if jm_matrix j then "Jacobian up to date with its inverse" else "Jacobian not up to date with its inverse.") ++ t.
Proof. unfold display_jacobian; destruct (jm_matrix j) as [m|]; eexists; reflexivity. Qed.
Definition jacobians_of {F} (rf : rootfinder F) : list (jacobian_matrix F) :=
  match rf_log rf with
  | Some l => flat_map (fun e => match e with LJacobian j => [j] | _ => [] end) l
  | None => []
  end.
(** Broyden's first method: four matrices, three of them approximations, all with
    their inverse; with the update of the inverse only the first has a matrix. *)
Example C63_case :
  check_run (solve (model_from_function sq2) (activate_debug (sq2_fd 4 broy1 false)) (user_model_new 1))
    (fun rf s r => Nat.eqb (length (jacobians_of rf)) 4 &&
       forallb (fun j => match jm_matrix j with Some _ => true | None => false end) (jacobians_of rf)) = true /\
  check_run (solve (model_from_function sq2)
      (activate_debug (sq2_fd 4 (QuasiNewton (InverseJacobianUpdate BroydenFirstMethod)) false))
      (user_model_new 1))
    (fun rf s r => match map (fun j => match jm_matrix j with Some _ => true | None => false end) (jacobians_of rf) with
                   | [true; false; false; false] => true | _ => false end) = true.
Proof. split; vm_compute; reflexivity. Qed.
Print Assumptions C63_solve.
Print Assumptions C63_new.
Print Assumptions C63_exact.

(** *** C64 *)

(** A step that succeeds shows the pair whose inverse gave the step. *)
Theorem C64_shown F (NF : Num F) (IF : Inverter F) St EI EU (M : Model F St EI EU) rf s rf' s' g :
  rf_debug rf = true -> compute_step M rf s = Ret (rf', s', Ok g) ->
  exists l j inv v res raw, rf_log rf = Some l /\ rf_log rf' = Some (l ++ [LJacobian j])%list /\
    jm_inverse j = Some inv /\ get_residuals M s' = Ret v /\
    evaluate_update_residuals (rf_residuals_config rf) v = Ret res /\
    mat_vec_chk (mat_neg inv) res = Ret raw /\
    step_limitations (rf_iters_params rf) (get_iteratives M s') raw = Ret g.
Proof.
  intros D H; pose proof (compute_step_log M rf s rf' s' g D H) as (l & L & L').
  apply compute_step_inv in H; destruct H as (C & H); specialize (H g eq_refl).
  apply same_but_jac_fields in C; destruct C as ((_ & _ & C1 & C2 & _) & _).
  unfold compute_next_from_inv_jac in H; rewrite C1, C2 in H.
  minv1 H; minv1 H; minv1 H; minv1 H.
  destruct (jm_inverse (rf_jacobian rf')) as [inv|] eqn:J; [|discriminate].
  match goal with X : unwrap (Some _) = Ret _ |- _ => injection X as <- end.
  exists l, (rf_jacobian rf'), inv, x, x0, x2; auto 8.
Qed.

(** A jacobian that fails is not shown: the statement, the cases where it holds
    (a jacobian of the user that fails, an inverse that does not exist), and a
    run where it does not: when a finite difference fails, Newton's method shows
    the jacobian of the iteration before. *)
Definition no_matrix_shown {F} (before after : option (list (log_entry F))) : Prop :=
  forall l l', before = Some l -> after = Some (l ++ l')%list ->
  forall j, In (LJacobian j) l' -> jm_matrix j = None.
Definition C64_statement : Prop :=
  forall St EI EU (M : Model f64 St EI EU) rf s rf' s' e,
  compute_step M rf s = Ret (rf', s', Err e) -> no_matrix_shown (rf_log rf) (rf_log rf').

Lemma appended {A} (l l1 l2 : list A) : Some (l ++ l1)%list = Some (l ++ l2)%list -> l1 = l2.
Proof. intros H; injection H as H; eapply app_inv_head, H. Qed.
Theorem C64_partial F (NF : Num F) (IF : Inverter F) St EI EU (M : Model F St EI EU) rf s rf' s' e :
  (jacobian_provided M s = true \/ e = InvalidJacobianInverseError) ->
  compute_step M rf s = Ret (rf', s', Err e) -> no_matrix_shown (rf_log rf) (rf_log rf').
Proof.
  intros A H l l' L L' j I.
  assert (K : forall rf1 s1, compute_jac M rf s = Ret (rf1, s1, Err e) ->
            jm_matrix (rf_jacobian rf1) = None /\ rf_log rf1 = rf_log rf).
  { intros rf1 s1 C; apply compute_jac_inv in C; destruct C as (j1 & r0 & -> & C & R); split; [|reflexivity].
    cbn; destruct (jacobian_provided M s) eqn:P.
    - unfold evaluate_jacobian_from_analytical_function in C; minv1 C; minv1 C; destruct b as [jv|e'].
      + minv1 C; unfold update_jacobian_with_exact_value, update_jacobian in C.
        destruct (try_inverse _); injection C as <- _ <-; [discriminate R|reflexivity].
      + injection C as <- _ _; reflexivity.
    - destruct A as [A|A]; [discriminate A|subst e].
      unfold evaluate_jacobian_from_finite_difference in C; minv1 C; minv1 C; destruct b as [m|e'].
      + unfold update_jacobian_with_exact_value, update_jacobian in C.
        destruct (try_inverse _); injection C as <- _ <-; [discriminate R|reflexivity].
      + injection C as _ _ <-; destruct e'; discriminate R. }
  assert (W : forall rf1 rf2, jm_matrix (rf_jacobian rf1) = None -> rf_log rf1 = rf_log rf ->
            when_debug rf1 (jac_to_log rf1) = Ret rf2 -> rf_log rf2 = rf_log rf' -> jm_matrix j = None).
  { intros rf1 rf2 N R V Q; unfold when_debug in V; destruct (rf_debug rf1).
    - unfold jac_to_log in V; apply write_log_inv in V; destruct V as (l1 & L1 & ->).
      cbn in Q; rewrite <- Q in L'; rewrite R, L in L1; injection L1 as <-.
      apply appended in L'; subst l'; destruct I as [I|[]]; injection I as <-; exact N.
    - injection V as <-; rewrite <- Q, R, L in L'.
      rewrite <- (app_nil_r l) in L' at 1; apply appended in L'; subst l'; destruct I. }
  unfold compute_step in H; destruct (sp_resolution_method (rf_parameters rf)) as [|m].
  - unfold compute_newton_raphson_step in H; minv1 H; minv1 H; destruct b as [u|e']; [minv1 H; discriminate H|].
    injection H as <- _ <-.
    destruct (K _ _ eq_refl) as [K1 K2].
    eapply W; eauto.
  - unfold compute_quasi_newton_step in H; minv1 H; destruct b as [u|e']; [minv1 H; discriminate H|].
    injection H as <- _ <-; unfold evaluate_jacobian_quasi_newton_step in E.
    destruct (jm_compute_at_next (rf_jacobian rf)).
    + minv1 E; minv1 E; injection E as <- _ ->.
      destruct (K _ _ eq_refl) as [K1 K2].
      eapply W; eauto.
    + minv1 E; match type of E with (if ?b then _ else _) = _ => destruct b end; [minv1 E; discriminate E|].
      injection E as <- _ _.
      match goal with X : approximate_step _ _ = _ |- _ => apply approximate_step_inv in X; destruct X as [j1 ->] end.
      cbn in L'; rewrite L in L'; rewrite <- (app_nil_r l) in L' at 1; apply appended in L'; subst l'; destruct I.
Qed.

Lemma compute_step_extends F (NF : Num F) (IF : Inverter F) St EI EU (M : Model F St EI EU) rf s rf' s' r :
  compute_step M rf s = Ret (rf', s', r) ->
  forall l, rf_log rf = Some l -> exists t, rf_log rf' = Some (l ++ t)%list.
Proof.
  assert (W : forall (rf1 rf2 : rootfinder F) l, rf_log rf1 = Some l -> when_debug rf1 (jac_to_log rf1) = Ret rf2 ->
            exists t, rf_log rf2 = Some (l ++ t)%list).
  { intros rf1 rf2 l L V; unfold when_debug in V; destruct (rf_debug rf1).
    - apply write_log_inv in V; destruct V as (l1 & L1 & ->); rewrite L in L1; injection L1 as <-.
      eexists; reflexivity.
    - injection V as <-; exists []; rewrite app_nil_r; exact L. }
  assert (C : forall rf1 s1 r1, compute_jac M rf s = Ret (rf1, s1, r1) -> rf_log rf1 = rf_log rf).
  { intros rf1 s1 r1 C; apply compute_jac_inv in C; destruct C as (j1 & r0 & -> & _); reflexivity. }
  intros H l L; unfold compute_step in H; destruct (sp_resolution_method (rf_parameters rf)) as [|m].
  - unfold compute_newton_raphson_step in H; minv1 H; pose proof (C _ _ _ eq_refl) as C1; minv1 H.
    destruct b; [minv1 H|]; injection H as <- _ _; (eapply W; [|eassumption]); congruence.
  - unfold compute_quasi_newton_step in H; minv1 H.
    match type of E with _ = Ret (?z, _, _) => assert (G : exists t, rf_log z = Some (l ++ t)%list) end.
    { unfold evaluate_jacobian_quasi_newton_step in E.
      destruct (jm_compute_at_next (rf_jacobian rf)).
      - minv1 E; pose proof (C _ _ _ eq_refl) as C1; minv1 E; injection E as <- _ _.
        (eapply W; [|eassumption]); congruence.
      - minv1 E.
        match goal with X : approximate_step _ _ = _ |- _ => apply approximate_step_inv in X; destruct X as [j1 ->] end.
        match type of E with (if ?b then _ else _) = _ => destruct b end.
        + minv1 E; injection E as <- _ _; eapply W; [|eassumption]; exact L.
        + injection E as <- _ _; exists []; rewrite app_nil_r; exact L. }
    destruct b; [minv1 H|]; injection H as <- _ _; exact G.
Qed.

(** x^2 - 2 from 1: the finite difference of the second iteration fails. *)
Definition stale_model := scripted_model 1 sq2 None (at_call 3 SUnusable) always_ok.
Definition stale_rf := activate_debug (sq2_fd 50 NewtonRaphson false).
Definition shows_matrix {F} (l l' : option (list (log_entry F))) : option (list (log_entry F) * jacobian_matrix F) :=
  match l, l' with
  | Some l, Some l' =>
      match skipn (length l) l' with
      | [LJacobian j] => match jm_matrix j with Some _ => Some (l, j) | None => None end
      | _ => None
      end
  | _, _ => None
  end.
Definition stale : bool :=
  match nth_head stale_model stale_rf (scripted_init 1) 1 with
  | Some (rf, s, me) =>
      match compute_step stale_model (set_iter rf (S (rf_iter rf))) s with
      | Ret (rf', _, Err _) => match shows_matrix (rf_log rf) (rf_log rf') with Some _ => true | None => false end
      | _ => false
      end
  | None => false
  end.
Lemma stale_run : stale = true.
Proof. vm_compute. reflexivity. Qed.
Theorem C64_finite_difference_refuted : ~ C64_statement.
Proof.
  intros H; pose proof stale_run as R; unfold stale in R.
  destruct (nth_head stale_model stale_rf (scripted_init 1) 1) as [[[rf s] me]|]; [|discriminate R].
  destruct (compute_step stale_model (set_iter rf (S (rf_iter rf))) s) as [[[rf' s'] [g|e]]|] eqn:C;
    try discriminate R.
  destruct (rf_log rf) as [l|] eqn:L; [|discriminate R].
  destruct (rf_log rf') as [l'|] eqn:L'; [|discriminate R]; cbn [shows_matrix] in R.
  assert (L0 : rf_log (set_iter rf (S (rf_iter rf))) = Some l) by exact L.
  pose proof (compute_step_extends _ _ _ _ _ _ _ _ _ _ _ _ C _ L0) as [t T]; rewrite L' in T; injection T as ->.
  rewrite skipn_app, skipn_all, Nat.sub_diag in R; cbn [List.app skipn] in R.
  destruct t as [|[| | | | |j] [|]]; try discriminate R.
  destruct (jm_matrix j) eqn:J; [|discriminate R].
  specialize (H _ _ _ _ _ _ _ _ _ C l [LJacobian j] L0 L' j (or_introl eq_refl)); congruence.
Qed.
Print Assumptions C64_shown.
Print Assumptions C64_partial.
Print Assumptions C64_finite_difference_refuted.
