(** Specification vocabulary: the states a resolution goes through.

    [loop_head M rf0 s0 rf s me]: during [solve M rf0 s0], the solver [rf] and the
    model in the state [s] are reached at the start of the loop
    (rootfinder.rs:418), [me] being the current error. *)
From Verif Require Import Base Num Linalg Residuals Iteratives UserModel Jacobian Solver
  Tactics FlowFacts.

Section Reach.
Context {F : Type} {NF : Num F} {IF : Inverter F}.
Context {St EI EU : Type} (M : Model F St EI EU).
Notation rootfinder := (rootfinder F).

Inductive loop_head (rf0 : rootfinder) (s0 : St) : rootfinder -> St -> F -> Prop :=
| head_start : forall s r e rf,
    evaluate M (set_iteratives M s0 (rf_initial_guess rf0)) = Ret (s, r) ->
    (forall x, r <> Err (UnusableValuesError x)) ->
    evaluate_errors M rf0 s = Ret e ->
    when_debug rf0 (rf' <- parameters_to_log rf0 ;; iteration_to_log M rf' s e) = Ret rf ->
    loop_head rf0 s0 rf s (amax e)
| head_next : forall rf s me rf1 s1 e,
    loop_head rf0 s0 rf s me ->
    continues rf me = true ->
    iteration M rf s = Ret (rf1, s1, Ok e) ->
    loop_head rf0 s0 rf1 s1 (amax e).

(** The end of [solve] after the loop. *)
Definition conclude (o : outcome (rootfinder * St * result F (solver_error EI EU)))
  : outcome (rootfinder * St * result unit (solver_error EI EU)) :=
  '(rf, s, r) <- o ;;
  Ret (rf, s, match r with Ok me => verdict rf me | Err e => Err e end).

Lemma loop_head_iterate : forall rf0 s0 rf s me, loop_head rf0 s0 rf s me ->
  same_config rf0 rf /\
  exists fuel, sp_max_iter (rf_parameters rf) - rf_iter rf < fuel /\
    solve M rf0 s0 = conclude (iterate M fuel rf s me).
Proof.
  intros rf0 s0 rf s me H. induction H as [s r e rf Hev Hnu He Hd|rf s me rf1 s1 e Hl IH Hc Hit].
  - assert (Hs : same_but_log rf0 rf).
    { eapply same_but_log_when; [|exact Hd]. intros rf1 H1. minv1 H1.
      eapply same_but_log_trans; [eapply same_but_log_params; eauto|].
      eapply same_but_log_iter; eauto. }
    apply same_but_log_fields in Hs. destruct Hs as (Hs & Hi & _). split; [exact Hs|].
    exists (S (sp_max_iter (rf_parameters rf))). split; [lia|].
    assert (Hf : solve_from M rf0 s = conclude (iterate M (S (sp_max_iter (rf_parameters rf))) rf s (amax e))).
    { unfold solve_from. rewrite He. cbn [bind]. rewrite Hd. reflexivity. }
    unfold solve. rewrite Hev. cbn [bind]. destruct r as [u|[x|x]]; [exact Hf|exact Hf|].
    elim (Hnu x). reflexivity.
  - destruct IH as (Hs & fuel & Hfuel & IH).
    assert (H2 := Hit). apply iteration_fields in H2. destruct H2 as (Hc1 & Hi1 & _).
    split; [eapply same_config_trans; eauto|].
    destruct fuel as [|fuel]; [lia|]. exists fuel.
    assert (Hp : rf_parameters rf1 = rf_parameters rf) by apply Hc1.
    unfold continues in Hc.
    split. { rewrite Hp, Hi1. apply andb_prop in Hc. destruct Hc as (_ & Hc). apply Nat.ltb_lt in Hc. lia. }
    rewrite IH. cbn [iterate]. rewrite Hc, Hit. reflexivity.
Qed.

Lemma loop_head_config : forall rf0 s0 rf s me, loop_head rf0 s0 rf s me -> same_config rf0 rf.
Proof. intros. eapply loop_head_iterate; eauto. Qed.

(** The result of [solve] is that of the iteration that fails, if any. *)
Lemma loop_head_err : forall rf0 s0 rf s me rf' s' x, loop_head rf0 s0 rf s me ->
  continues rf me = true -> iteration M rf s = Ret (rf', s', Err x) ->
  solve M rf0 s0 = Ret (rf', s', Err x).
Proof.
  intros rf0 s0 rf s me rf' s' x H Hc Hit. apply loop_head_iterate in H.
  destruct H as (_ & fuel & Hf & ->). destruct fuel as [|fuel]; [lia|].
  unfold continues in Hc. cbn [iterate]. rewrite Hc, Hit. reflexivity.
Qed.
Lemma loop_head_panic : forall rf0 s0 rf s me p, loop_head rf0 s0 rf s me ->
  continues rf me = true -> iteration M rf s = Panic p ->
  solve M rf0 s0 = Panic p.
Proof.
  intros rf0 s0 rf s me p H Hc Hit. apply loop_head_iterate in H.
  destruct H as (_ & fuel & Hf & ->). destruct fuel as [|fuel]; [lia|].
  unfold continues in Hc. cbn [iterate]. rewrite Hc, Hit. reflexivity.
Qed.
Lemma loop_head_end : forall rf0 s0 rf s me, loop_head rf0 s0 rf s me ->
  continues rf me = false -> solve M rf0 s0 = Ret (rf, s, verdict rf me).
Proof.
  intros rf0 s0 rf s me H Hc. apply loop_head_iterate in H.
  destruct H as (_ & fuel & Hf & ->). destruct fuel as [|fuel]; [lia|].
  unfold continues in Hc. cbn [iterate]. rewrite Hc. reflexivity.
Qed.

(** Conversely a resolution that does not stop at the initial evaluation goes
    through loop heads up to its end. *)
Lemma solve_heads : forall rf0 s0 rf' s' r,
  solve M rf0 s0 = Ret (rf', s', r) ->
  (exists x, r = Err (ModelInitialEvaluationError (show_unusable M x)) /\ rf' = rf0 /\
     evaluate M (set_iteratives M s0 (rf_initial_guess rf0)) = Ret (s', Err (UnusableValuesError x))) \/
  (exists me, loop_head rf0 s0 rf' s' me /\ continues rf' me = false /\ r = verdict rf' me) \/
  (exists rf s me x, loop_head rf0 s0 rf s me /\ continues rf me = true /\
     iteration M rf s = Ret (rf', s', Err x) /\ r = Err x).
Proof.
  intros rf0 s0 rf' s' r H. apply solve_inv in H.
  destruct H as (s1 & r1 & Hev & [(x & -> & -> & -> & ->)|(Hnu & H)]); [left; eauto|right].
  unfold solve_from in H. minv1 H. minv1 H. minv1 H. minv1 H. rename E1 into Hit.
  apply (iterate_ind M (loop_head rf0 s0)) in Hit.
  - destruct b as [me|x1].
    + left. exists me. destruct Hit as (H1 & H2). auto.
    + right. destruct Hit as (rf & s & me & H1 & H2 & H3). exists rf, s, me, x1. auto.
  - intros. eapply head_next; eauto.
  - eapply head_start; eauto.
Qed.

(** Invariants of the loop heads. *)
Lemma loop_head_ind_simple : forall rf0 s0 (P : rootfinder -> St -> F -> Prop),
  (forall rf s e, loop_head rf0 s0 rf s (amax e) -> same_but_log rf0 rf -> evaluate_errors M rf0 s = Ret e -> P rf s (amax e)) ->
  (forall rf s me rf1 s1 e, loop_head rf0 s0 rf s me -> P rf s me -> continues rf me = true ->
     iteration M rf s = Ret (rf1, s1, Ok e) -> P rf1 s1 (amax e)) ->
  forall rf s me, loop_head rf0 s0 rf s me -> P rf s me.
Proof.
  intros rf0 s0 P H0 H1 rf s me H. induction H as [s r e rf Hev Hnu He Hd|rf s me rf1 s1 e Hl IH Hc Hit].
  - apply H0; [eapply head_start; eauto| |exact He].
    eapply same_but_log_when; [|exact Hd]. intros rf1 H2. minv1 H2.
    eapply same_but_log_trans; [eapply same_but_log_params; eauto|].
    eapply same_but_log_iter; eauto.
  - eapply H1; eauto.
Qed.

(** The current error is that of the current state. *)
Lemma loop_head_error : forall rf0 s0 rf s me, loop_head rf0 s0 rf s me ->
  exists e, evaluate_errors M rf0 s = Ret e /\ me = amax e.
Proof.
  intros rf0 s0 rf s me H. assert (Hc := loop_head_config _ _ _ _ _ H).
  destruct H as [s r e rf Hev Hnu He Hd|rf s me rf1 s1 e Hl Hcc Hit]; [eauto|].
  apply iteration_fields in Hit. destruct Hit as (_ & _ & Hit).
  exists e. split; [|reflexivity]. rewrite <- (Hit e eq_refl). symmetry.
  apply evaluate_errors_config. apply Hc.
Qed.

End Reach.

(** The [n]-th loop head of a resolution, by execution. *)
Section Heads.
Context {F : Type} {NF : Num F} {IF : Inverter F}.
Context {St EI EU : Type} (M : Model F St EI EU).

Fixpoint nth_head (rf0 : rootfinder F) (s0 : St) (n : nat) : option (rootfinder F * St * F) :=
  match n with
  | O =>
      match evaluate M (set_iteratives M s0 (rf_initial_guess rf0)) with
      | Ret (_, Err (UnusableValuesError _)) => None
      | Ret (s, _) =>
          match evaluate_errors M rf0 s with
          | Ret e =>
              match when_debug rf0 (rf' <- parameters_to_log rf0 ;; iteration_to_log M rf' s e) with
              | Ret rf => Some (rf, s, amax e)
              | Panic _ => None
              end
          | Panic _ => None
          end
      | Panic _ => None
      end
  | S n' =>
      match nth_head rf0 s0 n' with
      | Some (rf, s, me) =>
          if continues rf me then
            match iteration M rf s with
            | Ret (rf1, s1, Ok e) => Some (rf1, s1, amax e)
            | _ => None
            end
          else None
      | None => None
      end
  end.

Lemma nth_head_loop : forall n rf0 s0 rf s me,
  nth_head rf0 s0 n = Some (rf, s, me) -> loop_head M rf0 s0 rf s me.
Proof.
  induction n as [|n IH]; intros rf0 s0 rf s me H; cbn [nth_head] in H.
  - destruct (evaluate M _) as [[s1 r]|] eqn:E1; [|discriminate H].
    assert (Hr : forall x, r <> Err (UnusableValuesError x))
      by (intros x ->; discriminate H).
    assert (H' : match evaluate_errors M rf0 s1 with
          | Ret e =>
              match when_debug rf0 (rf' <- parameters_to_log rf0 ;; iteration_to_log M rf' s1 e) with
              | Ret rf => Some (rf, s1, amax e)
              | Panic _ => None
              end
          | Panic _ => None
          end = Some (rf, s, me)).
    { destruct r as [u|[x|x]]; [exact H|exact H|now elim (Hr x)]. }
    destruct (evaluate_errors M rf0 s1) as [e|] eqn:E2; [|discriminate H'].
    destruct (when_debug _ _) as [rf'|] eqn:E3; [|discriminate H'].
    injection H' as <- <- <-. eapply head_start; eauto.
  - destruct (nth_head rf0 s0 n) as [[[rf1 s1] me1]|] eqn:E1; [|discriminate H].
    destruct (continues rf1 me1) eqn:E2; [|discriminate H].
    destruct (iteration M rf1 s1) as [[[rf2 s2] [e|x]]|] eqn:E3; [|discriminate H|discriminate H].
    injection H as <- <- <-. eapply head_next; eauto.
Qed.

(** A head from which an iteration succeeds, with a property of both. *)
Definition check_iteration (rf0 : rootfinder F) (s0 : St) (n : nat)
  (p : rootfinder F -> St -> F -> rootfinder F -> St -> vec F -> bool) : bool :=
  match nth_head rf0 s0 n with
  | Some (rf, s, me) =>
      continues rf me &&
      match iteration M rf s with
      | Ret (rf1, s1, Ok e) => p rf s me rf1 s1 e
      | _ => false
      end
  | None => false
  end.

Lemma check_iteration_true : forall rf0 s0 n p, check_iteration rf0 s0 n p = true ->
  exists rf s me rf1 s1 e, loop_head M rf0 s0 rf s me /\ continues rf me = true /\
    iteration M rf s = Ret (rf1, s1, Ok e) /\ p rf s me rf1 s1 e = true.
Proof.
  intros rf0 s0 n p H. unfold check_iteration in H.
  destruct (nth_head rf0 s0 n) as [[[rf s] me]|] eqn:E1; [|discriminate H].
  apply andb_prop in H. destruct H as (H1 & H).
  destruct (iteration M rf s) as [[[rf1 s1] [e|x]]|] eqn:E3; [|discriminate H|discriminate H].
  exists rf, s, me, rf1, s1, e. split; [now apply nth_head_loop in E1|]. auto.
Qed.
End Heads.
