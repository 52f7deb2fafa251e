(** The log file of a resolution. *)
From Verif Require Import Base Num Linalg Residuals Iteratives UserModel Jacobian Solver
  Tactics FlowFacts FlagFacts Reach.

Section LogFacts.
Context {F : Type} {NF : Num F} {IF : Inverter F}.
Context {St EI EU : Type} (M : Model F St EI EU).
Notation rootfinder := (rootfinder F).

Lemma write_log_some : forall (rf : rootfinder) e rf', write_log rf e = Ret rf' ->
  exists l, rf_log rf = Some l /\ rf_log rf' = Some (l ++ [e]) /\ rf_debug rf' = rf_debug rf.
Proof. intros rf e rf' H. apply write_log_inv in H. destruct H as (l & Hl & ->). eauto. Qed.

Lemma compute_jac_log : forall (rf : rootfinder) s rf' s' r,
  compute_jac M rf s = Ret (rf', s', r) ->
  rf_log rf' = rf_log rf /\ rf_debug rf' = rf_debug rf.
Proof.
  intros rf s rf' s' r H. apply compute_jac_inv in H. destruct H as (j & r0 & -> & _). auto.
Qed.

Lemma when_jac_log : forall (rf rf' : rootfinder), rf_debug rf = true ->
  when_debug rf (jac_to_log rf) = Ret rf' ->
  exists l, rf_log rf = Some l /\ rf_log rf' = Some (l ++ [LJacobian (rf_jacobian rf')]).
Proof.
  intros rf rf' Hd H. unfold when_debug in H. rewrite Hd in H. unfold jac_to_log in H.
  apply write_log_inv in H. destruct H as (l & Hl & ->). exists l. auto.
Qed.

Lemma compute_step_log : forall (rf : rootfinder) s rf' s' g, rf_debug rf = true ->
  compute_step M rf s = Ret (rf', s', Ok g) ->
  exists l, rf_log rf = Some l /\ rf_log rf' = Some (l ++ [LJacobian (rf_jacobian rf')]).
Proof.
  intros rf s rf' s' g Hd H. unfold compute_step in H.
  destruct (sp_resolution_method (rf_parameters rf)) as [|m].
  - unfold compute_newton_raphson_step in H. minv1 H. minv1 H.
    apply compute_jac_log in E. destruct E as (El & Ed).
    apply when_jac_log in E0; [|congruence]. destruct E0 as (l & H1 & H2).
    destruct b; [|discriminate H]. minv1 H. minv1 H. exists l. split; [congruence|assumption].
  - unfold compute_quasi_newton_step in H. minv1 H.
    unfold evaluate_jacobian_quasi_newton_step in E.
    destruct (jm_compute_at_next (rf_jacobian rf)).
    + minv1 E. minv1 E. minv1 E. apply compute_jac_log in E0. destruct E0 as (El & Ed).
      apply when_jac_log in E1; [|congruence]. destruct E1 as (l & H1 & H2).
      destruct b; [|discriminate H]. minv1 H. minv1 H. exists l. split; [congruence|assumption].
    + minv1 E. apply approximate_step_inv in E0. destruct E0 as (j & ->).
      destruct b1; [|minv1 E; discriminate H]. minv1 E. minv1 E.
      apply when_jac_log in E0; [|assumption]. destruct E0 as (l & H1 & H2).
      minv1 H. minv1 H. exists l. split; assumption.
Qed.

(** What the end of an iteration writes. *)
Definition tail_record (conf : residuals_config) (sp s' : St) (tail : list (log_entry F)) : Prop :=
  (tail = [] /\ s' = sp) \/ (tail = [LRecompute] /\ s' = sp) \/
  (exists v e, get_residuals M s' = Ret v /\ evaluate_stopping_residuals conf v = Ret e /\
     tail = [LDamping (get_iteratives M s') v e]).

Lemma finish_update_log : forall (rf : rootfinder) s e cur prop rf' s' en, rf_debug rf = true ->
  finish_update M rf s e cur prop = Ret (rf', s', en) ->
  exists l v e1 tail, rf_log rf = Some l /\
    get_residuals M s = Ret v /\ evaluate_stopping_residuals (rf_residuals_config rf) v = Ret e1 /\
    rf_log rf' = Some (l ++ LIteration (rf_iter rf) (get_iteratives M s) v e1 :: tail) /\
    tail_record (rf_residuals_config rf) s s' tail.
Proof.
  intros rf s e cur prop rf' s' en Hd H. unfold finish_update in H.
  minv1 H. minv1 H. minv1 H. minv1 H. minv1 H.
  unfold evaluate_errors in E. destruct (get_residuals M s) as [v|] eqn:Ev; [|discriminate E].
  cbn [bind] in E.
  unfold when_debug in E0. rewrite Hd in E0. unfold iteration_to_log in E0. rewrite Ev in E0.
  cbn [bind] in E0. apply write_log_inv in E0. destruct E0 as (l & Hl & ->).
  assert (Hst : rf_log rf' = rf_log a0).
  { apply store_steps_inv in E2. destruct E2 as [->|(ds & dy & _ & _ & ->)]; reflexivity. }
  rewrite Hst. clear E2 Hst.
  exists l, v, x. cbn [rf_parameters set_log] in E1.
  destruct (sp_damping (rf_parameters rf)).
  - unfold damping in E1.
    destruct (ngtb _ _); [|minv1 E1; exists []; cbn [rf_log set_log]; repeat split; auto; left; auto].
    destruct (_ && _).
    + minv1 E1. minv1 E1. unfold when_debug in E0. cbn [rf_debug set_jacobian set_log] in E0.
      rewrite Hd in E0. apply write_log_inv in E0. destruct E0 as (l2 & Hl2 & ->).
      cbn [rf_log set_log set_jacobian] in *. injection Hl2 as <-.
      exists [LRecompute]. rewrite <- app_assoc. cbn. repeat split; auto. right. left. auto.
    + minv1 E1. minv1 E1. destruct b; [|discriminate E1]. minv1 E1. minv1 E1. minv1 E1.
      unfold evaluate_errors in E3. destruct (get_residuals M s') as [v2|] eqn:Ev2; [|discriminate E3].
      cbn [bind] in E3.
      unfold when_debug in E4. cbn [rf_debug set_log] in E4. rewrite Hd in E4.
      unfold damping_to_log in E4. rewrite Ev2 in E4. cbn [bind] in E4.
      apply write_log_inv in E4. destruct E4 as (l2 & Hl2 & ->).
      cbn [rf_log set_log] in *. injection Hl2 as <-.
      exists [LDamping (get_iteratives M s') v2 en]. rewrite <- app_assoc. cbn.
      repeat split; auto. right. right. exists v2, en. auto.
  - minv1 E1. exists []. cbn [rf_log set_log]. repeat split; auto. left. auto.
Qed.

(** The record of one iteration: the jacobian used, then the iteratives,
    residuals and stopping residuals in the state [sp] obtained by evaluating the
    proposed point, then the end. *)
Definition iteration_record (conf : residuals_config) (i : nat) (s' : St)
  (block : list (log_entry F)) : Prop :=
  exists j s1 x sp r v e tail,
    evaluate M (set_iteratives M s1 x) = Ret (sp, r) /\
    get_residuals M sp = Ret v /\ evaluate_stopping_residuals conf v = Ret e /\
    tail_record conf sp s' tail /\
    block = LJacobian j :: LIteration i (get_iteratives M sp) v e :: tail.

Lemma iteration_log : forall (rf : rootfinder) s rf' s' en, rf_debug rf = true ->
  iteration M rf s = Ret (rf', s', Ok en) ->
  exists l block, rf_log rf = Some l /\ rf_log rf' = Some (l ++ block) /\
    iteration_record (rf_residuals_config rf) (S (rf_iter rf)) s' block.
Proof.
  intros rf s rf' s' en Hd H. apply iteration_inv in H. destruct H as (rf1 & s1 & r1 & Hs & H).
  destruct r1 as [g|]; [|destruct H as (_ & _ & H); discriminate H].
  assert (Hc := Hs). apply compute_step_inv in Hc. destruct Hc as (Hc & _).
  apply same_but_jac_fields in Hc. destruct Hc as ((_ & _ & _ & Hrc & Hdbg) & Hi & _).
  cbn [rf_residuals_config rf_debug rf_iter set_iter] in *.
  apply compute_step_log in Hs; [|exact Hd]. destruct Hs as (l & Hl & Hl1).
  cbn [rf_log set_iter] in Hl.
  apply update_model_inv in H.
  destruct H as (e & s2 & r2 & _ & Hev & [(x & _ & _ & _ & Hr)|(en' & _ & _ & Hf)]);
    [discriminate Hr|].
  apply finish_update_log in Hf; [|cbn; congruence].
  destruct Hf as (l2 & v & e1 & tail & Hl2 & Hv & He & Hlog & Htail).
  cbn [rf_log rf_residuals_config rf_iter set_valid] in *.
  rewrite Hl1 in Hl2. injection Hl2 as <-. rewrite Hrc, Hi in *.
  exists l, (LJacobian (rf_jacobian rf1) :: LIteration (S (rf_iter rf)) (get_iteratives M s2) v e1 :: tail).
  split; [exact Hl|]. split; [rewrite Hlog, <- app_assoc; reflexivity|].
  exists (rf_jacobian rf1), s1, g, s2, r2, v, e1, tail. auto.
Qed.

(** The records of successive iterations [i], ..., [k]; the last one ends in the
    state [s]. *)
Inductive records (conf : residuals_config) (i : nat) : nat -> St -> list (log_entry F) -> Prop :=
| records_none : forall s, records conf i i s []
| records_more : forall k s l s' b, records conf i k s l ->
    iteration_record conf (S k) s' b -> records conf i (S k) s' (l ++ b).

Lemma loop_head_log : forall rf0 s0 rf s me, rf_debug rf0 = true ->
  loop_head M rf0 s0 rf s me ->
  exists l x0 v0 e0 rest, rf_log rf0 = Some l /\
    rf_log rf = Some (l ++ LParameters (rf_parameters rf0) (rf_iters_params rf0) (rf_residuals_config rf0)
                        :: LIteration (rf_iter rf0) x0 v0 e0 :: rest) /\
    (exists s r, evaluate M (set_iteratives M s0 (rf_initial_guess rf0)) = Ret (s, r) /\
       x0 = get_iteratives M s /\ get_residuals M s = Ret v0 /\
       evaluate_stopping_residuals (rf_residuals_config rf0) v0 = Ret e0) /\
    records (rf_residuals_config rf0) (rf_iter rf0) (rf_iter rf) s rest.
Proof.
  intros rf0 s0 rf s me Hd H. induction H as [s r e rf Hev Hnu He Hw|rf s me rf1 s1 e Hl IH Hc Hit].
  - unfold when_debug in Hw. rewrite Hd in Hw. minv1 Hw.
    unfold parameters_to_log in E. minv1 E. minv1 E.
    apply write_log_inv in E. destruct E as (l & Hl & ->).
    unfold iteration_to_log in Hw. minv1 Hw. apply write_log_inv in Hw.
    destruct Hw as (l2 & Hl2 & ->). cbn [rf_log set_log] in *. injection Hl2 as <-.
    unfold evaluate_errors in He. rewrite E in He. cbn [bind] in He.
    exists l, (get_iteratives M s), x, e, []. split; [exact Hl|]. split.
    { rewrite <- app_assoc. reflexivity. }
    split; [exists s, r; auto|]. constructor.
  - destruct IH as (l & x0 & v0 & e0 & rest & Hl0 & Hl1 & Hs & Hr).
    assert (Hc0 := loop_head_config _ _ _ _ _ _ Hl). destruct Hc0 as (_ & _ & _ & Hrc & Hdb).
    assert (Hi : rf_iter rf1 = S (rf_iter rf)) by (apply iteration_fields in Hit; apply Hit).
    apply iteration_log in Hit; [|congruence].
    destruct Hit as (l2 & b & Hl2 & Hl3 & Hb). rewrite Hl1 in Hl2. injection Hl2 as <-.
    exists l, x0, v0, e0, (rest ++ b). split; [exact Hl0|]. split.
    { rewrite Hl3. rewrite <- app_assoc. reflexivity. }
    split; [exact Hs|]. rewrite Hi. econstructor; [exact Hr|]. rewrite <- Hrc. exact Hb.
Qed.

(** At a loop head the log is available. *)
Lemma loop_head_log_ok : forall rf0 s0 rf s me, loop_head M rf0 s0 rf s me ->
  rf_debug rf = true -> exists l, rf_log rf = Some l.
Proof.
  intros rf0 s0 rf s me H Hd. assert (Hc := loop_head_config _ _ _ _ _ _ H).
  destruct Hc as (_ & _ & _ & _ & Hdb).
  apply loop_head_log in H; [|congruence]. destruct H as (l & x0 & v0 & e0 & rest & _ & H & _). eauto.
Qed.

End LogFacts.
