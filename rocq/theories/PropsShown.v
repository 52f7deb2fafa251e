(** C83: every point of the log is an evaluation of the model. *)
From Coq Require Import Ascii Lia.
From Flocq Require Import BinarySingleNaN.
From Verif Require Import Base Num Linalg Residuals Iteratives UserModel Jacobian Solver Trace F64 Tactics Samples
  FlowFacts LogFacts Reach SafeFacts PropsFlow PropsPanic Text Display PropsReading.

Section Shown.
Context {F : Type} {NF : Num F} {IF : Inverter F}.
Context {St EI EU : Type} (M : Model F St EI EU).
Context (p : solver_parameters F) (its : list (iterative F)) (conf : residuals_config).

(** [x], [v], [e] are the variables, the members of the equations and the errors
    just after a call of the model that did not report unusable values. *)
Definition evaluation (x : vec F) (v : residuals_values F) (e : vec F) : Prop :=
  exists s0 x0 s r, evaluate M (set_iteratives M s0 x0) = Ret (s, r) /\
    (forall i, r <> Err (UnusableValuesError i)) /\
    get_iteratives M s = x /\ get_residuals M s = Ret v /\ evaluate_stopping_residuals conf v = Ret e.
Definition shown (e : log_entry F) : Prop :=
  match e with
  | LIteration _ x v errors | LDamping x v errors => evaluation x v errors
  | LParameters p' its' conf' => p' = p /\ its' = its /\ conf' = conf
  | LHeader | LRecompute | LJacobian _ => True
  end.
Definition configured (rf : rootfinder F) : Prop :=
  rf_parameters rf = p /\ rf_iters_params rf = its /\ rf_residuals_config rf = conf.
Definition honest (rf : rootfinder F) : Prop :=
  configured rf /\ forall l, rf_log rf = Some l -> Forall shown l.
(** The present state of the model was evaluated. *)
Definition evaluated_state (s : St) : Prop := exists s0 x0 r,
  evaluate M (set_iteratives M s0 x0) = Ret (s, r) /\ forall i, r <> Err (UnusableValuesError i).

Lemma honest_write rf e rf' : honest rf -> shown e -> write_log rf e = Ret rf' -> honest rf'.
Proof.
  intros [C H] T W; apply write_log_inv in W; destruct W as (l & L & ->); split; [exact C|].
  cbn; intros l' E; injection E as <-; apply Forall_app; auto.
Qed.
Lemma honest_when rf k rf' : honest rf -> (forall rf1, k = Ret rf1 -> honest rf1) ->
  when_debug rf k = Ret rf' -> honest rf'.
Proof.
  intros T H; unfold when_debug; destruct (rf_debug rf); [apply H|intros E; injection E as <-; exact T].
Qed.
Lemma honest_jac rf j : honest rf -> honest (set_jacobian rf j).
Proof. intros H; exact H. Qed.
Lemma honest_jac_to_log rf rf' : honest rf -> when_debug rf (jac_to_log rf) = Ret rf' -> honest rf'.
Proof.
  intros T; apply honest_when; [exact T|]; intros rf1; apply honest_write; [exact T|exact I].
Qed.
Lemma honest_compute_jac rf s rf' s' r : honest rf -> compute_jac M rf s = Ret (rf', s', r) -> honest rf'.
Proof. intros T H; apply compute_jac_inv in H; destruct H as (j & r0 & -> & _); exact T. Qed.
Lemma honest_approximate rf m rf' ok : honest rf -> approximate_step rf m = Ret (rf', ok) -> honest rf'.
Proof. intros T H; apply approximate_step_inv in H; destruct H as [j ->]; exact T. Qed.
Lemma honest_step rf s rf' s' r : honest rf -> compute_step M rf s = Ret (rf', s', r) -> honest rf'.
Proof.
  intros T H; unfold compute_step in H; destruct (sp_resolution_method (rf_parameters rf)) as [|m].
  - unfold compute_newton_raphson_step in H; minv1 H; minv1 H.
    match goal with X : when_debug _ _ = Ret ?z |- _ => assert (T2 : honest z);
      [eapply honest_jac_to_log; [|exact X]; eapply honest_compute_jac; eassumption|] end.
    destruct b; [minv1 H|]; injection H as <- _ _; exact T2.
  - unfold compute_quasi_newton_step in H; minv1 H.
    assert (T2 : honest a0).
    { unfold evaluate_jacobian_quasi_newton_step in E; destruct (jm_compute_at_next _).
      - minv1 E; minv1 E; injection E as <- _ _.
        eapply honest_jac_to_log; [|eassumption]; eapply honest_compute_jac; eassumption.
      - minv1 E.
        match goal with X : approximate_step _ _ = Ret (?a, _) |- _ =>
          assert (TA : honest a) by (eapply honest_approximate; eassumption) end.
        match type of E with (if ?b then _ else _) = _ => destruct b end.
        + minv1 E; injection E as <- _ _; eapply honest_jac_to_log; eassumption.
        + injection E as <- _ _; exact TA. }
    destruct b; [minv1 H|]; injection H as <- _ _; exact T2.
Qed.
Lemma errors_evaluation rf s v e : honest rf -> evaluated_state s -> get_residuals M s = Ret v ->
  evaluate_errors M rf s = Ret e -> evaluation (get_iteratives M s) v e.
Proof.
  intros [(_ & _ & C) _] (s0 & x0 & r & E & U) R H; unfold evaluate_errors in H; rewrite R, C in H; cbn [bind] in H.
  exists s0, x0, s, r; auto 6.
Qed.
Lemma honest_log_iteration rf0 rf s e rf' : honest rf0 -> honest rf -> evaluated_state s ->
  evaluate_errors M rf0 s = Ret e -> iteration_to_log M rf s e = Ret rf' -> honest rf'.
Proof.
  intros T0 T V E H; unfold iteration_to_log in H; minv1 H; eapply honest_write; [exact T| |exact H].
  apply (errors_evaluation rf0 s); assumption.
Qed.
Lemma honest_finish rf s e cur prop rf' s' en : honest rf -> evaluated_state s ->
  finish_update M rf s e cur prop = Ret (rf', s', en) -> honest rf'.
Proof.
  intros T V H; unfold finish_update in H; minv1 H; minv1 H.
  match goal with X : when_debug _ _ = Ret ?z |- _ => assert (T1 : honest z) end.
  { eapply honest_when; [exact T| |eassumption]; intros rf1; apply (honest_log_iteration rf); assumption. }
  minv1 H.
  match goal with X : (if _ then damping _ _ _ _ _ _ _ else _) = Ret (?z, _, _) |- _ => assert (T2 : honest z) end.
  { match goal with X : (if _ then damping _ _ _ _ _ _ _ else _) = _ |- _ => rename X into D end.
    destruct (sp_damping _); [|injection D as <- _ _; exact T1].
    unfold damping in D; minv1 D; [|injection D as <- _ _; exact T1].
    minv1 D.
    - minv1 D; injection D as <- _ _.
      eapply honest_when; [| |eassumption]; [exact T1|].
      intros rf1; apply honest_write; [exact T1|exact I].
    - minv1 D; minv1 D; minv1 D; minv1 D; minv1 D; injection D as <- _ _.
      eapply honest_when; [exact T1| |eassumption]; intros rf1 W; unfold damping_to_log in W; minv1 W.
      eapply honest_write; [exact T1| |exact W].
      eapply errors_evaluation; [exact T1| |eassumption|eassumption].
      do 3 eexists; split; [eassumption|discriminate]. }
  minv1 H; injection H as <- _ _.
  match goal with X : store_steps _ _ _ _ _ _ = _ |- _ => apply store_steps_inv in X;
    destruct X as [->|(ds & dy & _ & _ & ->)] end; [exact T2|].
  split; apply T2.
Qed.
Lemma honest_iteration rf s rf' s' r : honest rf ->
  iteration M rf s = Ret (rf', s', r) -> honest rf'.
Proof.
  intros T H; apply iteration_inv in H; destruct H as (rf1 & s1 & r1 & Hs & H).
  assert (T1 : honest rf1) by (eapply honest_step; [|exact Hs]; exact T).
  destruct r1 as [g|e]; [|destruct H as (-> & _ & _); exact T1].
  apply update_model_inv in H; destruct H as (e & s2 & r2 & _ & V & [(x & _ & -> & _)|(en & _ & U & H)]);
    [exact T1|].
  eapply honest_finish; [| |exact H]; [exact T1|].
  exists s1, g, r2; split; [exact V|exact U].
Qed.
Lemma honest_iterate fuel : forall rf s me rf' s' r, honest rf ->
  iterate M fuel rf s me = Ret (rf', s', r) -> honest rf'.
Proof.
  induction fuel as [|fuel IH]; intros rf s me rf' s' r T H; cbn [iterate] in H; [discriminate H|].
  minv1 H; [|injection H as <- _ _; exact T].
  minv1 H.
  match goal with X : iteration _ _ _ = Ret (?z, _, _) |- _ => assert (T1 : honest z) by (eapply honest_iteration; eassumption) end.
  destruct b; [eapply IH; eassumption|injection H as <- _ _; exact T1].
Qed.

(** C83: every point in the log of any solve, whatever its result, is a point
    where the model was evaluated, with the values it gave there and their
    errors; the parameters are those of the solver. *)
Theorem C83_solve rf s rf' s' r : honest rf -> solve M rf s = Ret (rf', s', r) -> honest rf'.
Proof.
  intros T H; apply solve_inv in H; destruct H as (s1 & r1 & V & [(x & _ & -> & _)|(U & H)]); [exact T|].
  unfold solve_from in H; minv1 H; minv1 H; minv1 H; injection H as <- _ _.
  eapply honest_iterate; [|eassumption].
  eapply honest_when; [exact T| |eassumption]; intros rf1 W; minv1 W.
  eapply (honest_log_iteration rf); [exact T| | |eassumption|exact W].
  - match goal with X : parameters_to_log _ = Ret _ |- _ => unfold parameters_to_log in X; minv1 X; minv1 X;
      eapply honest_write; [exact T| |exact X] end.
    destruct T as [(-> & -> & ->) _]; repeat split.
  - exists s, (rf_initial_guess rf), r1; split; [exact V|exact U].
Qed.
Theorem C83_new g rf : rootfinder_new p g its conf = Ret rf -> honest (activate_debug rf).
Proof.
  unfold rootfinder_new; intros H; minv H;
    (split; [repeat split|intros l Hl; injection Hl as <-; repeat constructor]).
Qed.
End Shown.
Print Assumptions C83_solve.
Print Assumptions C83_new.

(** ** The log and the calls on the model *)
Local Open Scope list_scope.

(** [calls M s0 t s]: the calls [t] on the model, one after the other, lead from
    [s0] to [s]. *)
Inductive calls {F St EI EU} (M : Model F St EI EU) (s0 : St) : list (event F) -> St -> Prop :=
| calls_none : calls M s0 [] s0
| calls_set t s x : calls M s0 t s -> calls M s0 (t ++ [ESet x]) (set_iteratives M s x)
| calls_eval t s s' r : calls M s0 t s -> evaluate M s = Ret (s', r) -> calls M s0 (t ++ [EEval (status_of r)]) s'
| calls_jac t s s' r : calls M s0 t s -> get_jacobian M s = Ret (s', r) -> calls M s0 (t ++ [EJac (status_of r)]) s'
| calls_mem t s m : calls M s0 t s -> calls M s0 (t ++ [EMem m]) (set_memory M s m).
Definition reads {F St EI EU} {NF : Num F} (M : Model F St EI EU) (conf : residuals_config) (s : St)
  (x : vec F) (v : residuals_values F) (e : vec F) : Prop :=
  get_iteratives M s = x /\ get_residuals M s = Ret v /\ evaluate_stopping_residuals conf v = Ret e.

(** The log [l] tells the calls [t]: the evaluation of the guess; then for each
    iteration the calls of its jacobian, the evaluation of the proposed point,
    and if it is damped the evaluation of the damped point. What is written was
    read after the calls so far. *)
Inductive told {F St EI EU} {NF : Num F} (M : Model F St EI EU) (conf : residuals_config) (s0 : St) (guess : vec F)
  (start : list (log_entry F)) (i : nat) : nat -> list (event F) -> list (log_entry F) -> Prop :=
| told_first k s x v e : k <> SUnusable -> calls M s0 [ESet guess; EEval k] s -> reads M conf s x v e ->
    told M conf s0 guess start i i [ESet guess; EEval k] (start ++ [LIteration i x v e])
| told_next n t l kind b j g k s x v e t' l' : told M conf s0 guess start i n t l ->
    jac_block kind b -> k <> SUnusable ->
    calls M s0 (t ++ b ++ [ESet g; EEval k]) s -> reads M conf s x v e ->
    ((t' = [] /\ (l' = [] \/ l' = [LRecompute])) \/
     (exists d s' x' v' e', t' = [ESet d; EEval SOk] /\ l' = [LDamping x' v' e'] /\
        calls M s0 (t ++ b ++ [ESet g; EEval k] ++ t') s' /\ reads M conf s' x' v' e')) ->
    told M conf s0 guess start i (S n) (t ++ b ++ [ESet g; EEval k] ++ t')
      (l ++ LJacobian j :: LIteration (S n) x v e :: l').

Section Told.
Context {F : Type} {NF : Num F} {IF : Inverter F}.
Context {St EI EU : Type} (M : Model F St EI EU).
Notation T := (traced M).
Context (s0 : St).

Definition following (p q : St * list (event F)) : Prop := p = q /\ calls M s0 (snd p) (fst p).
Lemma following_sim : SimFacts.model_sim T T following true false.
Proof.
  constructor; try (intros s1 s2 [<- _]; reflexivity).
  - intros s1 s2 x [<- C]; split; [reflexivity|]; cbn; apply calls_set, C.
  - intros [s1 t1] s2 [<- C]; cbn in *.
    destruct (evaluate M s1) as [[s r]|] eqn:E; cbn; [|reflexivity].
    split; [|reflexivity]; split; [reflexivity|]; cbn; eapply calls_eval; eassumption.
  - intros [s1 t1] s2 [<- C]; cbn in *.
    destruct (get_jacobian M s1) as [[s r]|] eqn:E; cbn; [|reflexivity].
    split; [|reflexivity]; split; [reflexivity|]; cbn; eapply calls_jac; eassumption.
  - intros s1 s2 m [<- C]; split; [reflexivity|]; cbn; apply calls_mem, C.
  - reflexivity.
Qed.
Lemma following_refl rf : @SimFacts.rrel F true false rf rf.
Proof. apply SimFacts.rrel_refl. Qed.
Lemma step_calls rf s t rf1 s1 t1 r : calls M s0 t s ->
  compute_step T rf (s, t) = Ret (rf1, (s1, t1), r) -> calls M s0 t1 s1.
Proof.
  intros C H.
  pose proof (SimFacts.sim_compute_step T T following true false following_sim rf rf (s, t) (s, t)
                (following_refl rf) (conj eq_refl C)) as S.
  rewrite H in S; cbn in S; destruct S as (_ & [_ S] & _); exact S.
Qed.
Lemma point_calls s t x p r : calls M s0 t s -> evaluate T (set_iteratives T (s, t) x) = Ret (p, r) ->
  exists s', p = (s', t ++ [ESet x; EEval (status_of r)]) /\ calls M s0 (t ++ [ESet x; EEval (status_of r)]) s'.
Proof.
  intros C H; apply TraceFacts.traced_set_eval_inv in H; destruct H as (s' & E & ->).
  exists s'; split; [reflexivity|].
  change [ESet x; EEval (status_of r)] with ([ESet x] ++ [EEval (status_of r)])%list; rewrite app_assoc.
  eapply calls_eval; [|exact E]; apply calls_set, C.
Qed.

(** The end of an update. *)
Lemma finish_told rf s t e cur prop rf' s' t' en : rf_debug rf = true -> calls M s0 t s ->
  finish_update T rf (s, t) e cur prop = Ret (rf', (s', t'), en) ->
  exists l x v e1 ta la, rf_log rf = Some l /\ reads M (rf_residuals_config rf) s x v e1 /\
    t' = t ++ ta /\ rf_log rf' = Some (l ++ LIteration (rf_iter rf) x v e1 :: la) /\
    calls M s0 t' s' /\
    ((ta = [] /\ (la = [] \/ la = [LRecompute])) \/
     (exists d x' v' e', ta = [ESet d; EEval SOk] /\ la = [LDamping x' v' e'] /\
        reads M (rf_residuals_config rf) s' x' v' e')).
Proof.
  intros Hd C H; unfold finish_update in H.
  minv1 H. minv1 H. minv1 H. minv1 H. minv1 H.
  unfold evaluate_errors in E; destruct (get_residuals T (s, t)) as [v|] eqn:Ev; [|discriminate E].
  cbn [bind] in E.
  unfold when_debug in E0; rewrite Hd in E0; unfold iteration_to_log in E0; rewrite Ev in E0.
  cbn [bind] in E0; apply write_log_inv in E0; destruct E0 as (l & Hl & ->).
  assert (Hst : rf_log rf' = rf_log a0).
  { apply store_steps_inv in E2; destruct E2 as [->|(ds & dy & _ & _ & ->)]; reflexivity. }
  rewrite Hst; clear E2 Hst.
  exists l, (get_iteratives M s), v, x; cbn [rf_parameters set_log] in E1.
  assert (Rd : reads M (rf_residuals_config rf) s (get_iteratives M s) v x) by (repeat split; assumption).
  destruct (sp_damping (rf_parameters rf)).
  - unfold damping in E1.
    destruct (ngtb _ _).
    2: { minv1 E1; exists [], []; rewrite app_nil_r; cbn [rf_log set_log]; auto 10. }
    destruct (_ && _).
    + minv1 E1. minv1 E1. unfold when_debug in E0; cbn [rf_debug set_jacobian set_log] in E0.
      rewrite Hd in E0; apply write_log_inv in E0; destruct E0 as (l2 & Hl2 & ->).
      cbn [rf_log set_log set_jacobian] in *; injection Hl2 as <-.
      exists [], [LRecompute]; rewrite app_nil_r, <- app_assoc; auto 10.
    + minv1 E1. minv1 E1. destruct b; [|discriminate E1]. minv1 E1. minv1 E1. minv1 E1.
      match goal with X : evaluate T _ = Ret (_, Ok _) |- _ => apply (point_calls s t) in X; [|exact C];
        destruct X as (s2 & Q & C2) end.
      injection Q as -> ->.
      unfold evaluate_errors in E3; destruct (get_residuals T (s2, _)) as [v2|] eqn:Ev2; [|discriminate E3].
      cbn [bind] in E3.
      unfold when_debug in E4; cbn [rf_debug set_log] in E4; rewrite Hd in E4.
      unfold damping_to_log in E4; rewrite Ev2 in E4; cbn [bind] in E4.
      apply write_log_inv in E4; destruct E4 as (l2 & Hl2 & ->).
      cbn [rf_log set_log] in *; injection Hl2 as <-.
      eexists [ESet x0; EEval SOk], [LDamping (get_iteratives M s2) v2 en]; rewrite <- app_assoc.
      split; [exact Hl|split; [exact Rd|split; [reflexivity|split; [reflexivity|split; [exact C2|right]]]]].
      exists x0, (get_iteratives M s2), v2, en; repeat split; assumption.
  - minv1 E1; exists [], []; rewrite app_nil_r; cbn [rf_log set_log]; auto 10.
Qed.

Context (rf0 : rootfinder F) (l0 : list (log_entry F)).
Context (debug : rf_debug rf0 = true) (log : rf_log rf0 = Some l0).
Notation conf := (rf_residuals_config rf0).
Notation start := (l0 ++ [LParameters (rf_parameters rf0) (rf_iters_params rf0) conf]).

Lemma head_told rf p me : loop_head T rf0 (s0, []) rf p me ->
  exists l, rf_log rf = Some l /\ told M conf s0 (rf_initial_guess rf0) start (rf_iter rf0) (rf_iter rf) (snd p) l /\
    calls M s0 (snd p) (fst p).
Proof.
  induction 1 as [p r e rf V U E W|rf p me rf1 p1 e H IH C I].
  - apply (point_calls s0 []) in V; [|constructor]; destruct V as (s & -> & Cs); cbn [List.app] in Cs |- *.
    unfold when_debug in W; rewrite debug in W; minv1 W.
    unfold parameters_to_log in E0; minv1 E0; minv1 E0; apply write_log_inv in E0; destruct E0 as (l & L & ->).
    rewrite log in L; injection L as <-.
    unfold iteration_to_log in W; minv1 W; apply write_log_inv in W; destruct W as (l & L & ->).
    cbn [rf_log set_log] in L; injection L as <-; eexists; split; [reflexivity|split; [|exact Cs]].
    cbn [rf_iter set_log snd fst].
    match goal with X : get_residuals T (s, _) = Ret ?v |- _ =>
      unfold evaluate_errors in E; rewrite X in E; cbn [bind] in E; change (get_residuals M s = Ret v) in X;
      apply told_first with (s := s); [|exact Cs|repeat split; [exact X|exact E]] end.
    intros K; destruct r as [|[i|i]]; try discriminate K; exact (U i eq_refl).
  - destruct IH as (l & L & Td & Cs); destruct p as [s t]; cbn [fst snd] in *.
    assert (Cf := loop_head_config _ _ _ _ _ _ H); destruct Cf as (_ & _ & _ & Cc & Cd).
    assert (It := I); apply iteration_fields in It; destruct It as (_ & Ik & _).
    apply iteration_inv in I; destruct I as (rf2 & [s2 t2] & r2 & St2 & I).
    assert (D : rf_debug (set_iter rf (S (rf_iter rf))) = true) by (cbn; congruence).
    destruct r2 as [g|]; [|destruct I as (_ & _ & I); discriminate I].
    assert (C2 := step_calls _ _ _ _ _ _ _ Cs St2).
    assert (J2 := TraceFacts.compute_step_trace M _ _ _ _ _ _ St2); destruct J2 as (s2' & kind & b & Q & Jb & _).
    injection Q as <- ->.
    assert (Lg := compute_step_log T _ _ _ _ _ D St2); destruct Lg as (l1 & L1 & L2).
    cbn [rf_log set_iter] in L1; rewrite L in L1; injection L1 as <-.
    apply compute_step_inv in St2; destruct St2 as (Sb & _); apply same_but_jac_fields in Sb.
    destruct Sb as ((_ & _ & _ & Sc & Sd) & Si & _).
    apply update_model_inv in I; destruct I as (e0 & p3 & r3 & _ & V & [(x & _ & _ & _ & R)|(en & R & U & Fn)]);
      [discriminate R|].
    apply (point_calls s2 _ _ _ _ C2) in V; destruct V as (s3 & -> & C3).
    destruct p1 as [s4 t4].
    apply (finish_told _ s3 _) in Fn; [|cbn [rf_debug set_valid]; congruence|exact C3].
    destruct Fn as (l3 & x & v & e1 & ta & la & L3 & Rd & -> & L4 & C4 & Tl).
    cbn [rf_log set_valid rf_residuals_config rf_iter] in *.
    rewrite L2 in L3; injection L3 as <-.
    eexists; split; [exact L4|split; [|exact C4]].
    replace (rf_iter rf1) with (S (rf_iter rf)) by congruence.
    cbn [rf_iter set_iter] in Si; cbn [rf_residuals_config set_iter] in Sc.
    rewrite Si, <- app_assoc, <- !app_assoc; cbn [List.app].
    rewrite Sc, Cc in Rd; rewrite Sc, Cc in Tl; rewrite <- !app_assoc in C3; rewrite <- !app_assoc in C4.
    apply told_next with (kind := kind) (s := s3); try assumption.
    + intros K; destruct r3 as [|[i|i]]; try discriminate K; exact (U i eq_refl).
    + destruct Tl as [Tl|(d & x' & v' & e' & E1 & E2 & Rd')]; [left; exact Tl|right].
      exists d, s4, x', v', e'; repeat split; try assumption; apply Rd'.
Qed.

(** The log of a run that ends with a verdict tells the calls made on the model. *)
Theorem C83_told rf' s' t r : solve T rf0 (s0, []) = Ret (rf', (s', t), r) ->
  r = Ok tt \/ r = Err NonConvergenceError \/ r = Err FinalEvaluationError ->
  exists l, rf_log rf' = Some l /\ calls M s0 t s' /\
    told M conf s0 (rf_initial_guess rf0) start (rf_iter rf0) (rf_iter rf') t l.
Proof.
  intros H Hr; apply solve_heads in H.
  destruct H as [(x & -> & _)|[(me & Hl & _)|(rf & p & me & x & _ & _ & Hit & ->)]].
  - destruct Hr as [Hr|[Hr|Hr]]; discriminate Hr.
  - apply head_told in Hl; destruct Hl as (l & L & Td & C); exists l; auto.
  - apply VerdictFacts.iteration_no_verdict in Hit; destruct Hit as (N1 & N2).
    destruct Hr as [Hr|[Hr|Hr]]; congruence.
Qed.
End Told.
Print Assumptions C83_told.

(** ** Two runs with the same text *)

(** A model with as many equations as variables. *)
Definition square_model {F St EI EU} (M : Model F St EI EU) : Prop :=
  forall s0 x0 s r v, evaluate M (set_iteratives M s0 x0) = Ret (s, r) ->
    (forall i, r <> Err (UnusableValuesError i)) -> get_residuals M s = Ret v ->
    length (rv_left v) = length (get_iteratives M s) /\ length (rv_right v) = length (get_iteratives M s).
Lemma evaluate_length {F} {NF : Num F} f : forall ms (l r e : vec F), evaluate_residuals f ms l r = Ret e -> length e = length l.
Proof.
  induction ms as [|m ms IH]; intros l r e H; cbn [evaluate_residuals] in H.
  - injection H as <-; unfold vzeros; apply repeat_length.
  - destruct l as [|x l], r as [|y r]; try discriminate H; minv1 H; injection H as <-; cbn; f_equal.
    eapply IH; eassumption.
Qed.
Lemma adapter_square (f : vec f64 -> vec f64) : (forall x, length (f x) = length x) ->
  square_model (model_from_function f) /\ square_model (model_from_closure f) /\
  (forall j, square_model (model_from_function_and_jacobian f j)) /\
  (forall j, square_model (model_from_closure_and_jacobian f j)).
Proof.
  intros L; repeat split;
    match goal with
    | X : evaluate _ _ = Ret _, Y : get_residuals _ _ = Ret _ |- _ =>
        cbn [evaluate get_residuals set_iteratives model_from_function model_from_closure
             model_from_function_and_jacobian model_from_closure_and_jacobian] in X, Y;
        unfold um_evaluate, um_get_residuals, residuals_values_new in *; injection X as <- _;
        destruct (Nat.eqb _ _) eqn:Q; [|discriminate Y]; injection Y as <-; apply Nat.eqb_eq in Q;
        cbn [rv_left rv_right um_left um_right um_inputs um_set_iteratives get_iteratives model_from_function
             model_from_closure model_from_function_and_jacobian model_from_closure_and_jacobian] in *
    end; try apply L; rewrite <- Q; apply L.
Qed.

Section SameText.
Context {IF : Inverter f64} {St EI EU : Type} (M : Model f64 St EI EU).
Context (square : square_model M).
Lemma run_well_formed p g its conf rf s rf' s' r l : length (stopping_criterias conf) = length (update_methods conf) ->
  rootfinder_new p g its conf = Ret rf -> solve M (activate_debug rf) s = Ret (rf', s', r) ->
  rf_log rf' = Some l -> Forall well_formed l.
Proof.
  intros Lc N H L.
  assert (Hh := C83_solve M _ _ _ _ _ _ _ _ (C83_new M _ _ _ _ _ N) H); destruct Hh as [_ Hh].
  specialize (Hh l L); revert Hh; apply Forall_impl; intros e Se.
  destruct e; cbn [shown well_formed] in *; try exact I.
  - destruct Se as (_ & _ & ->); exact Lc.
  - destruct Se as (sa & xa & sb & ra & V & U & <- & R & E); destruct (square _ _ _ _ _ V U R) as [L1 L2].
    repeat split; [exact L1|exact L2|]; apply evaluate_length in E; congruence.
  - destruct Se as (sa & xa & sb & ra & V & U & <- & R & E); destruct (square _ _ _ _ _ V U R) as [L1 L2].
    repeat split; [exact L1|exact L2|]; apply evaluate_length in E; congruence.
Qed.
End SameText.

(** The variables as the solver uses them. *)
Definition iteratives_of (v : variables) : list (iterative f64) :=
  match v with
  | WithJacobian l => map iterative_of_params l
  | WithFiniteDiff l => map iterative_of_params_fd l
  end.
(** Two runs, of any two solvers on any two models with as many equations as
    variables, that wrote the same text went through the same points with the
    same values, errors and matrices, with the same parameters and limits. *)
Theorem C83_same_text {IF : Inverter f64} {St EI EU St' EI' EU'} (M : Model f64 St EI EU) (M' : Model f64 St' EI' EU')
  p g conf rf s rf1 s1 r l p' g' conf' rf' s' rf1' s1' r' l' version v v' text text' t :
  square_model M -> square_model M' ->
  length (stopping_criterias conf) = length (update_methods conf) ->
  length (stopping_criterias conf') = length (update_methods conf') ->
  rootfinder_new p g (iteratives_of v) conf = Ret rf -> solve M (activate_debug rf) s = Ret (rf1, s1, r) -> rf_log rf1 = Some l ->
  rootfinder_new p' g' (iteratives_of v') conf' = Ret rf' -> solve M' (activate_debug rf') s' = Ret (rf1', s1', r') -> rf_log rf1' = Some l' ->
  is_word version -> variables_text v = Ret text -> variables_text v' = Ret text' ->
  display_log display_f64 version text l = Ret t -> display_log display_f64 version text' l' = Ret t ->
  Forall2 looks_like l l' /\ (forall q is c, In (LParameters q is c) l -> v = v').
Proof.
  intros Q Q' C C' N H L N' H' L' W V V' D D'.
  eapply (C77_same_text version v v' text text' l l' t); try eassumption.
  - apply (run_well_formed M Q p g (iteratives_of v) conf rf s rf1 s1 r); assumption.
  - apply (run_well_formed M' Q' p' g' (iteratives_of v') conf' rf' s' rf1' s1' r'); assumption.
Qed.
Print Assumptions C83_same_text.

(** x^2 - 2 from 0.1, by finite differences and with damping: the first step
    overshoots and is halved. The log and the calls go together. *)
Definition C83_rf : rootfinder f64 :=
  activate_debug (sample_rf (params6 1 2 NewtonRaphson true) [ndec 1 10] (fd_its 1) (abs_conf 1)).
Example C83_case :
  square_model (model_from_function sq2) /\
  exists rf s t r, solve (traced (model_from_function sq2)) C83_rf (user_model_new 1, []) = Ret (rf, (s, t), r) /\
    r = Err NonConvergenceError /\
    match t, rf_log rf with
    | [ESet [a]; EEval SOk; ESet _; EEval SOk; EMem _; ESet [b]; EEval SOk; ESet [c]; EEval SOk;
       ESet _; EEval SOk; EMem _; ESet [d]; EEval SOk],
      Some [LHeader; LParameters _ _ _; LIteration 0 [a'] _ _; LJacobian _; LIteration 1 [b'] _ _; LDamping [c'] _ _;
            LJacobian _; LIteration 2 [d'] _ _] => neqb a a' && neqb b b' && neqb c c' && neqb d d' && nltb c b
    | _, _ => false
    end = true.
Proof.
  split; [apply adapter_square; intros x; unfold sq2; apply map_length|].
  assert (H : check_run (solve (traced (model_from_function sq2)) C83_rf (user_model_new 1, []))
    (fun rf p r => match r with Err NonConvergenceError => true | _ => false end &&
      match snd p, rf_log rf with
    | [ESet [a]; EEval SOk; ESet _; EEval SOk; EMem _; ESet [b]; EEval SOk; ESet [c]; EEval SOk;
       ESet _; EEval SOk; EMem _; ESet [d]; EEval SOk],
      Some [LHeader; LParameters _ _ _; LIteration 0 [a'] _ _; LJacobian _; LIteration 1 [b'] _ _; LDamping [c'] _ _;
            LJacobian _; LIteration 2 [d'] _ _] => neqb a a' && neqb b b' && neqb c c' && neqb d d' && nltb c b
    | _, _ => false
    end) = true) by (vm_compute; reflexivity).
  apply check_run_true in H; destruct H as (rf & [s t] & r & H & E).
  apply andb_prop in E; destruct E as [E1 E2]; exists rf, s, t, r; split; [exact H|split; [|exact E2]].
  destruct r as [|[]]; try discriminate E1; reflexivity.
Qed.
