(** What the budget of iterations (C73) and the tolerance (C74) change in a run. *)
From Coq Require Import Lra.
From Verif Require Import Base Num Linalg Residuals Iteratives UserModel Jacobian Solver F64
  Tactics FlowFacts Trace Spec SimFacts TraceFacts CountFacts F64Facts Samples
  VerdictFacts PropsFlow PropsSim LimitRun.

(** The verdicts of the end of the loop. *)
Definition met {EI EU} (r : result unit (solver_error EI EU)) : Prop :=
  r = Ok tt \/ r = Err FinalEvaluationError.
Definition loop_verdict {EI EU} (r : result unit (solver_error EI EU)) : Prop :=
  met r \/ r = Err NonConvergenceError.

Lemma loop_verdict_cases : forall EI EU (r : result unit (solver_error EI EU)),
  ~ loop_verdict r \/ met r \/ r = Err NonConvergenceError.
Proof.
  intros EI EU r. unfold loop_verdict, met.
  destruct r as [[]|[]]; auto; left; intros [[|]|]; discriminate.
Qed.

Section Together.
Context {F : Type} {NF : Num F} {IF : Inverter F} {St EI EU : Type}.
Context (M : Model F St EI EU).
Notation rootfinder := (rootfinder F).

Lemma verdict_loop : forall (rf : rootfinder) me, loop_verdict (verdict rf me : result unit (solver_error EI EU)).
Proof.
  intros rf me. unfold verdict, loop_verdict, met.
  destruct (ngtb _ _); [auto|]. destruct (rf_valid_last rf); auto.
Qed.

Lemma verdict_met : forall (rf : rootfinder) me, met (verdict rf me : result unit (solver_error EI EU)) <->
  ngtb me (sp_tolerance (rf_parameters rf)) = false.
Proof.
  intros rf me. unfold verdict, met. destruct (ngtb _ _).
  - split; [intros [|]|]; discriminate.
  - split; [reflexivity|]. destruct (rf_valid_last rf); auto.
Qed.

(** The two runs together. *)
Lemma stops_earlier : forall tol m tol' m' (rf : rootfinder) s,
  (forall e, ngtb e tol' = true -> ngtb e tol = true) -> m' <= m -> rf_debug rf = false ->
  match solve M (with_limits tol' m' rf) s with
  | Panic p => solve M (with_limits tol m rf) s = Panic p
  | Ret (rf1, s1, r1) =>
      (~ loop_verdict r1 ->
       solve M (with_limits tol m rf) s = Ret (with_limits tol m rf1, s1, r1)) /\
      (loop_verdict r1 -> exists me,
       r1 = verdict rf1 me /\ continues rf1 me = false /\
       rf1 = with_limits tol' m' rf1 /\
       (exists e, evaluate_errors M rf1 s1 = Ret e /\ me = amax e) /\
       exists fuel, m - rf_iter rf1 < fuel /\ solve M (with_limits tol m rf) s
       = ('(rf2, s2, r) <- iterate M fuel (with_limits tol m rf1) s1 me ;;
          Ret (rf2, s2, match r with Ok e => verdict rf2 e | Err e => Err e end)))
  end.
Proof.
  intros tol m tol' m' rf s HT HM Hd. unfold solve.
  cbn [rf_initial_guess with_limits rebuilt].
  destruct (evaluate M (set_iteratives M s (rf_initial_guess rf))) as [[p1 r]|q]; [|reflexivity].
  cbn [bind].
  assert (L : match solve_from M (with_limits tol' m' rf) p1 with
  | Panic p => solve_from M (with_limits tol m rf) p1 = Panic p
  | Ret (rf1, s1, r1) =>
      (~ loop_verdict r1 ->
       solve_from M (with_limits tol m rf) p1 = Ret (with_limits tol m rf1, s1, r1)) /\
      (loop_verdict r1 -> exists me,
       r1 = verdict rf1 me /\ continues rf1 me = false /\
       rf1 = with_limits tol' m' rf1 /\
       (exists e, evaluate_errors M rf1 s1 = Ret e /\ me = amax e) /\
       exists fuel, m - rf_iter rf1 < fuel /\ solve_from M (with_limits tol m rf) p1
       = ('(rf2, s2, r) <- iterate M fuel (with_limits tol m rf1) s1 me ;;
          Ret (rf2, s2, match r with Ok e => verdict rf2 e | Err e => Err e end)))
  end).
  { unfold solve_from.
    change (evaluate_errors M (with_limits tol' m' rf) p1) with (evaluate_errors M rf p1).
    change (evaluate_errors M (with_limits tol m rf) p1) with (evaluate_errors M rf p1).
    destruct (evaluate_errors M rf p1) as [e|q] eqn:Ee; [|reflexivity]. cbn [bind].
    unfold when_debug.
    change (rf_debug (with_limits tol' m' rf)) with (rf_debug rf).
    change (rf_debug (with_limits tol m rf)) with (rf_debug rf). rewrite Hd. cbn [bind].
    change (sp_max_iter (rf_parameters (with_limits tol' m' rf))) with m'.
    change (sp_max_iter (rf_parameters (with_limits tol m rf))) with m.
    assert (H := limits_iterate M tol m tol' m' HT HM (S m') (S m) rf p1 (amax e) Hd
      ltac:(lia) ltac:(lia)).
    destruct (iterate M (S m') (with_limits tol' m' rf) p1 (amax e))
      as [[[rf1 s1] [me|x]]|q] eqn:E; cbn [bind].
    - destruct H as (H1 & H2 & H3 & fuel & H4 & H5). split.
      + intros N. exfalso. apply N, verdict_loop.
      + intros _. exists me. split; [reflexivity|]. split; [exact H1|]. split; [exact H2|].
        split; [|exists fuel; split; [lia|now rewrite H5]].
        apply (iterate_ind M (fun rf s me => exists e, evaluate_errors M rf s = Ret e /\ me = amax e)) in E;
          [apply E| |exists e; split; [exact Ee|reflexivity]].
        intros rf0 s0 me0 rf2 s2 e0 _ _ Ei. apply iteration_fields in Ei.
        exists e0. split; [now apply Ei|reflexivity].
    - rewrite H. cbn [bind]. split; [reflexivity|]. intros V. exfalso.
      apply (iterate_ind M (fun _ _ _ => True)) in E; [|auto|exact I].
      destruct E as (rf0 & s0 & me0 & _ & _ & E). apply iteration_no_verdict in E.
      destruct E as (E1 & E2). destruct V as [[V|V]|V]; [discriminate|injection V as ->; easy..].
    - rewrite H. reflexivity. }
  destruct r as [u|[x|x]]; [exact L|exact L|].
  split; [reflexivity|]. intros [[V|V]|V]; discriminate V.
Qed.

End Together.

Section Budget.
Context {F : Type} {NF : Num F} {IF : Inverter F} {St EI EU : Type}.
Context (M : Model F St EI EU).
Notation rootfinder := (rootfinder F).
Notation T := (traced M).

Lemma iterate_grows : forall fuel rf s t me rf' s' t' r,
  iterate T fuel rf (s, t) me = Ret (rf', (s', t'), r) ->
  (exists more, t' = t ++ more) /\ rf_iter rf <= rf_iter rf'.
Proof.
  induction fuel as [|fuel IH]; intros rf s t me rf' s' t' r H; [discriminate|].
  cbn [iterate] in H. destruct (_ && _).
  - destruct (iteration T rf (s, t)) as [[[rf1 p1] r1]|] eqn:Ei; [|discriminate].
    cbn [bind] in H. destruct (iteration_ext M _ _ _ _ _ _ Ei) as (s1 & t1 & -> & _).
    apply iteration_fields in Ei. destruct Ei as (_ & Hi & _).
    destruct r1 as [e|x].
    + apply IH in H. destruct H as ((more & ->) & H2). split; [|lia].
      exists (t1 ++ more). now rewrite app_assoc.
    + injection H as <- <- <- <-. split; [eauto|lia].
  - injection H as <- <- <- <-. split; [exists []; now rewrite app_nil_r|lia].
Qed.

(** ** C73: a larger budget

    Any answer other than NonConvergenceError is also the answer with a larger
    budget, with the same calls of the model. A panic is the same panic. When
    the answer is NonConvergenceError the calls made so far are made again. *)
Theorem C73_budget : forall tol m m' (rf : rootfinder) s t,
  rf_debug rf = false -> m' <= m ->
  (forall rf1 p1 r1, r1 <> Err NonConvergenceError ->
     solve T (with_limits tol m' rf) (s, t) = Ret (rf1, p1, r1) ->
     solve T (with_limits tol m rf) (s, t) = Ret (with_limits tol m rf1, p1, r1)) /\
  (forall p, solve T (with_limits tol m' rf) (s, t) = Panic p ->
     solve T (with_limits tol m rf) (s, t) = Panic p) /\
  (forall rf1 s1 t1 r1 rf2 s2 t2 r2,
     solve T (with_limits tol m' rf) (s, t) = Ret (rf1, (s1, t1), r1) ->
     solve T (with_limits tol m rf) (s, t) = Ret (rf2, (s2, t2), r2) ->
     (exists more, t2 = t1 ++ more) /\ rf_iter rf1 <= rf_iter rf2).
Proof.
  intros tol m m' rf s t Hd HM.
  assert (H := stops_earlier T tol m tol m' rf (s, t) (fun e h => h) HM Hd).
  split; [|split].
  - intros rf1 [s1 t1] r1 NC E. rewrite E in H. destruct H as (H1 & H2).
    destruct (solve T (with_limits tol m rf) (s, t)) as [[[rf2 [s2 t2]] r2]|p] eqn:E2.
    + assert (D : ~ loop_verdict r1 \/ loop_verdict r1).
      { destruct (loop_verdict_cases _ _ r1) as [|[|]]; unfold loop_verdict; auto. }
      destruct D as [D|D]; [exact (H1 D)|]. destruct (H2 D) as (me & -> & Hc & Hrf & _ & fuel & Hf & ->).
      destruct D as [D|D]; [|easy]. apply verdict_met in D.
      destruct fuel as [|fuel]; [lia|]. cbn [iterate].
      rewrite Hrf in D. cbn [rf_parameters sp_tolerance with_limits rebuilt] in D |- *.
      rewrite D. cbn [andb bind]. rewrite Hrf. reflexivity.
    + exfalso.
      assert (D : ~ loop_verdict r1 \/ loop_verdict r1).
      { destruct (loop_verdict_cases _ _ r1) as [|[|]]; unfold loop_verdict; auto. }
      destruct D as [D|D]; [discriminate (H1 D)|].
      destruct (H2 D) as (me & -> & Hc & Hrf & _ & fuel & Hf & E3).
      destruct D as [D|D]; [|easy]. apply verdict_met in D.
      destruct fuel as [|fuel]; [lia|]. cbn [iterate] in E3.
      rewrite Hrf in D. cbn [rf_parameters sp_tolerance with_limits rebuilt] in D, E3.
      rewrite D in E3. discriminate E3.
  - intros p E. rewrite E in H. exact H.
  - intros rf1 s1 t1 r1 rf2 s2 t2 r2 E1 E2. rewrite E1 in H. destruct H as (H1 & H2).
    assert (D : ~ loop_verdict r1 \/ loop_verdict r1).
    { destruct (loop_verdict_cases _ _ r1) as [|[|]]; unfold loop_verdict; auto. }
    destruct D as [D|D].
    + rewrite (H1 D) in E2. injection E2 as <- <- <- <-.
      split; [exists []; now rewrite app_nil_r|]. cbn. lia.
    + destruct (H2 D) as (me & _ & _ & _ & _ & fuel & _ & E3). rewrite E3 in E2.
      destruct (iterate T fuel _ _ _) as [[[rf3 [s3 t3]] r3]|] eqn:E4; [|discriminate].
      cbn [bind] in E2. injection E2 as <- <- <- _. exact (iterate_grows _ _ _ _ _ _ _ _ _ E4).
Qed.

(** ** C74: a larger tolerance, any arithmetic

    [tol'] is larger: whatever exceeds it exceeds [tol]. *)
Lemma looser : forall tol tol' m (rf : rootfinder) s t,
  rf_debug rf = false -> (forall e, ngtb e tol' = true -> ngtb e tol = true) ->
  (forall rf1 s1 t1 r1 rf2 s2 t2 r2,
     solve T (with_limits tol' m rf) (s, t) = Ret (rf1, (s1, t1), r1) ->
     solve T (with_limits tol m rf) (s, t) = Ret (rf2, (s2, t2), r2) ->
     (exists more, t2 = t1 ++ more) /\ rf_iter rf1 <= rf_iter rf2 /\
     (met r2 -> met r1) /\
     (~ met r1 -> r1 = r2 /\ s1 = s2 /\ t1 = t2 /\ rf2 = with_limits tol m rf1)) /\
  (forall p, solve T (with_limits tol' m rf) (s, t) = Panic p ->
     solve T (with_limits tol m rf) (s, t) = Panic p).
Proof.
  intros tol tol' m rf s t Hd HT.
  assert (H := stops_earlier T tol m tol' m rf (s, t) HT (le_n m) Hd).
  split; [|intros p E; rewrite E in H; exact H].
  intros rf1 s1 t1 r1 rf2 s2 t2 r2 E1 E2. rewrite E1 in H. destruct H as (H1 & H2).
  assert (D : ~ loop_verdict r1 \/ met r1 \/ r1 = Err NonConvergenceError).
  { destruct (loop_verdict_cases _ _ r1) as [|[|]]; unfold loop_verdict; auto. }
  destruct D as [D|D].
  - rewrite (H1 D) in E2. injection E2 as <- <- <- <-.
    split; [exists []; now rewrite app_nil_r|]. cbn. split; [lia|]. auto.
  - destruct (H2 D) as (me & Hr & Hc & Hrf & _ & fuel & Hf & E3).
    rewrite E3 in E2. destruct D as [D|D].
    + destruct (iterate T fuel _ _ _) as [[[rf3 [s3 t3]] r3]|] eqn:E4; [|discriminate].
      cbn [bind] in E2. injection E2 as <- <- <- _.
      destruct (iterate_grows _ _ _ _ _ _ _ _ _ E4) as (G1 & G2).
      split; [exact G1|]. split; [exact G2|]. split; [auto|easy].
    + (* the budget is spent in both runs *)
      assert (B : Nat.ltb (rf_iter rf1) m = false /\ ngtb me tol' = true).
      { rewrite D in Hr. unfold verdict in Hr. unfold continues in Hc.
        rewrite Hrf in Hc, Hr. cbn [rf_parameters sp_tolerance sp_max_iter with_limits rebuilt rf_iter rf_valid_last] in Hc, Hr.
        destruct (ngtb me tol'); [split; [exact Hc|reflexivity]|].
        destruct (rf_valid_last rf1); discriminate Hr. }
      destruct B as (B & B2). destruct fuel as [|fuel]; [lia|]. cbn [iterate] in E2.
      cbn [rf_parameters sp_tolerance sp_max_iter with_limits rebuilt rf_iter] in E2.
      rewrite B, Bool.andb_false_r in E2. cbn [bind] in E2.
      injection E2 as <- <- <- E2. unfold verdict in E2.
      cbn [rf_parameters sp_tolerance with_limits rebuilt] in E2. rewrite (HT _ B2) in E2. subst r2 r1.
      split; [exists []; now rewrite app_nil_r|]. cbn. split; [lia|]. split; [auto|]. auto.
Qed.

End Budget.
Print Assumptions C73_budget.

(** C73, an execution: two iterations are not enough for x^2 = 2, four are; the
    answer with four is the answer with fifty. *)
Example C73_case :
  let M := model_from_function_and_jacobian sq2 sq2_jac in
  check_run (solve M (sq2_an 2 NewtonRaphson false) (user_model_new 1)) (fun _ _ r => is_nonconv r)
  && check_run (solve M (sq2_an 4 NewtonRaphson false) (user_model_new 1))
       (fun rf s r => is_ok r && check_run (solve M (sq2_an 50 NewtonRaphson false) (user_model_new 1))
          (fun rf2 s2 r2 => is_ok r2 && Nat.eqb (rf_iter rf) (rf_iter rf2) && Nat.eqb (rf_iter rf) 4)) = true.
Proof. vm_compute. reflexivity. Qed.

(** ** C74: a larger tolerance, on doubles *)
Lemma larger_f64 : forall tol tol' : f64, nleb tol tol' = true ->
  forall e, ngtb e tol' = true -> ngtb e tol = true.
Proof.
  intros tol tol' H e. unfold ngtb. intros L.
  destruct (isnan e) eqn:Ne.
  { exfalso. revert L. rewrite ltb_nan; [discriminate|auto]. }
  destruct (leb_true_inv _ _ H) as (N1 & N2 & _).
  apply ltb_key; [assumption..|]. apply ltb_key in L; [|assumption..].
  apply leb_key in H; [|assumption..]. lra.
Qed.

(** With a larger tolerance the model is called no more: the calls are the first
    ones of the run with the smaller tolerance. If the smaller tolerance was met
    so is the larger one. When the larger is not met the two runs are the same. *)
Theorem C74_tolerance :
  forall (IF : Inverter f64) St EI EU (M : Model f64 St EI EU) tol tol' m rf s t
    rf1 s1 t1 r1 rf2 s2 t2 r2,
  rf_debug rf = false -> nleb tol tol' = true ->
  solve (traced M) (with_limits tol' m rf) (s, t) = Ret (rf1, (s1, t1), r1) ->
  solve (traced M) (with_limits tol m rf) (s, t) = Ret (rf2, (s2, t2), r2) ->
  (exists more, t2 = t1 ++ more) /\ rf_iter rf1 <= rf_iter rf2 /\
  (r2 = Ok tt \/ r2 = Err FinalEvaluationError -> r1 = Ok tt \/ r1 = Err FinalEvaluationError) /\
  (r1 <> Ok tt -> r1 <> Err FinalEvaluationError ->
   r1 = r2 /\ s1 = s2 /\ t1 = t2 /\ rf2 = with_limits tol m rf1).
Proof.
  intros IF St EI EU M tol tol' m rf s t rf1 s1 t1 r1 rf2 s2 t2 r2 Hd HL E1 E2.
  destruct (looser M tol tol' m rf s t Hd (larger_f64 _ _ HL)) as (H & _).
  destruct (H _ _ _ _ _ _ _ _ E1 E2) as (H1 & H2 & H3 & H4).
  split; [exact H1|]. split; [exact H2|]. split; [exact H3|].
  intros N1 N2. apply H4. intros [|]; auto.
Qed.
Print Assumptions C74_tolerance.

(** A larger tolerance never turns success into an error. *)
Definition C74_statement : Prop :=
  forall St EI EU (M : Model f64 St EI EU) tol tol' m rf s rf1 s1 r1 rf2 s2,
  rf_debug rf = false -> rf_valid_last rf = true -> nleb tol tol' = true ->
  solve M (with_limits tol' m rf) s = Ret (rf1, s1, r1) ->
  solve M (with_limits tol m rf) s = Ret (rf2, s2, Ok tt) ->
  r1 = Ok tt.

(** False: the larger tolerance may be met first at an iterate whose values are
    reported inaccurate. *)
Theorem C74_success_refuted : ~ C74_statement.
Proof.
  intros H.
  set (M := scripted_model 1 sq2 (Some sq2_jac) (at_call 2 SInaccurate) always_ok).
  set (rf := sq2_an 50 NewtonRaphson false).
  assert (C : check_run (solve M (with_limits (ndec 1 10) 50 rf) (scripted_init 1))
     (fun _ _ r => is_final r) = true) by (vm_compute; reflexivity).
  assert (D : check_run (solve M (with_limits (ndec 1 1000000) 50 rf) (scripted_init 1))
     (fun _ _ r => is_ok r) = true) by (vm_compute; reflexivity).
  apply check_run_true in C, D.
  destruct C as (rf1 & s1 & r1 & E1 & Q1), D as (rf2 & s2 & r2 & E2 & Q2).
  destruct r2 as [[]|]; [|discriminate].
  refine (_ (H _ _ _ M _ _ _ rf _ _ _ _ _ _ eq_refl eq_refl _ E1 E2)).
  - intros ->. discriminate Q1.
  - vm_compute. reflexivity.
Qed.
Print Assumptions C74_success_refuted.

(** The two verdicts on a sample: one iteration less with tolerance 1/10. *)
Example C74_case :
  let M := model_from_function_and_jacobian sq2 sq2_jac in
  let rf := sq2_an 50 NewtonRaphson false in
  check_run (solve M (with_limits (ndec 1 10) 50 rf) (user_model_new 1))
    (fun rf1 _ r1 => is_ok r1 && check_run (solve M (with_limits (ndec 1 1000000) 50 rf) (user_model_new 1))
      (fun rf2 _ r2 => is_ok r2 && Nat.ltb (rf_iter rf1) (rf_iter rf2))) = true.
Proof. vm_compute. reflexivity. Qed.

(** ** C75: resuming

    Evaluating a model again at the point where it was just evaluated changes
    nothing. *)
Definition repeatable {F St EI EU} (M : Model F St EI EU) : Prop :=
  forall s x s' r, evaluate M (set_iteratives M s x) = Ret (s', r) ->
  evaluate M (set_iteratives M s' (get_iteratives M s')) = Ret (s', r).

Lemma adapters_repeatable : forall F (NF : Num F) func jac,
  repeatable (model_from_function func) /\ repeatable (model_from_closure func) /\
  repeatable (model_from_function_and_jacobian func jac) /\
  repeatable (model_from_closure_and_jacobian func jac).
Proof.
  intros F NF func jac. repeat split; intros s x s' r [= <- <-]; reflexivity.
Qed.

Section Resume.
Context {F : Type} {NF : Num F} {IF : Inverter F} {St EI EU : Type}.
Context (M : Model F St EI EU).
Notation rootfinder := (rootfinder F).

Lemma resumed_iterate : forall k tol m2 g fuel fuel' (a b : rootfinder) s me,
  shifted k (rebuilt tol (k + m2) g a) b ->
  sp_tolerance (rf_parameters a) = tol -> sp_max_iter (rf_parameters a) = m2 ->
  m2 - rf_iter a < fuel -> m2 - rf_iter a < fuel' ->
  rel_out (fun p q => let '(a', s1, r1) := p in let '(b', s2, r2) := q in
     shifted k (rebuilt tol (k + m2) g a') b' /\ s1 = s2 /\ r1 = r2 /\
     sp_tolerance (rf_parameters a') = tol /\
     ((a' = a /\ b' = b /\ r1 = Ok me) \/ (forall e, r1 = Ok e -> rf_valid_last a' = rf_valid_last b')))
    (iterate M fuel a s me) (iterate M fuel' b s me).
Proof.
  intros k tol m2 g. induction fuel as [|fuel IH]; intros fuel' a b s me H HT HM Hf Hf'; [lia|].
  destruct fuel' as [|fuel']; [lia|]. cbn [iterate].
  assert (H1 := H). destruct H1 as ((Hp & _) & Hd & _ & Hk). rewrite Hp, Hk.
  cbn [rebuilt rf_parameters sp_tolerance sp_max_iter rf_iter rf_debug] in *. rewrite HT, HM.
  replace (Nat.ltb (rf_iter a + k) (k + m2)) with (Nat.ltb (rf_iter a) m2).
  2:{ destruct (Nat.ltb_spec (rf_iter a) m2), (Nat.ltb_spec (rf_iter a + k) (k + m2)); lia || reflexivity. }
  destruct (ngtb me tol); cbn [andb]; [|cbn; auto 8].
  destruct (Nat.ltb_spec (rf_iter a) m2); [|cbn; auto 8].
  destruct (rebuilt_iteration M tol (k + m2) g a s Hd) as (E & Hd1).
  assert (Hi := shifted_iteration M k _ _ s H). rewrite E in Hi.
  destruct (iteration M a s) as [[[a1 s1] r1]|p] eqn:Ea; cbn [bind] in Hi.
  - destruct (iteration M b s) as [[[b1 s2] r2]|]; [|destruct Hi].
    destruct Hi as (H1 & <- & <- & Hv). cbn [bind].
    apply iteration_fields in Ea. destruct Ea as ((Hpa & _) & Hia & _).
    destruct r1 as [e1|x].
    + assert (R := IH fuel' a1 b1 s1 (amax e1) H1). rewrite Hpa in R.
      specialize (R HT HM ltac:(lia) ltac:(lia)).
      destruct (iterate M fuel a1 s1 (amax e1)) as [[[a2 t2] r2]|];
        destruct (iterate M fuel' b1 s1 (amax e1)) as [[[b2 u2] r2']|]; try exact R.
      cbn in R |- *. destruct R as (R1 & <- & <- & R2 & R3). repeat (split; [assumption || reflexivity|]).
      right. intros e ->. destruct R3 as [(-> & -> & _)|R3]; [|eapply R3; reflexivity].
      exact (Hv _ eq_refl).
    + cbn. rewrite Hpa. split; [exact H1|]. repeat split; auto. right. discriminate.
  - destruct (iteration M b s) as [|]; [destruct Hi|exact Hi].
Qed.

End Resume.

Lemma built : forall F (p : solver_parameters F) guess its conf rf,
  rootfinder_new p guess its conf = Ret rf ->
  rf = mkRootFinder p guess its conf false 0 None jacobian_matrix_new None None None true.
Proof.
  intros F p guess its conf rf E. unfold rootfinder_new in E.
  repeat match type of E with (if ?c then _ else _) = _ => destruct c; [discriminate|] end.
  congruence.
Qed.

(** A Newton-Raphson solve that used up its budget [m1], followed by a new solver
    started at the point where it stopped with budget [m2], ends like one solve
    with budget [m1 + m2]: same verdict, same state of the model, the counts add. *)
Theorem C75_resume :
  forall F (NF : Num F) (IF : Inverter F) St EI EU (M : Model F St EI EU)
    n tol m1 m2 d x0 its conf rf_a rf_b rf_c s rf1 s1 rf2 s2 r2,
  repeatable M ->
  rootfinder_new (mkSolverParameters n tol m1 NewtonRaphson d) x0 its conf = Ret rf_a ->
  solve M rf_a s = Ret (rf1, s1, Err NonConvergenceError) ->
  rootfinder_new (mkSolverParameters n tol m2 NewtonRaphson d) (get_iteratives M s1) its conf
  = Ret rf_b ->
  solve M rf_b s1 = Ret (rf2, s2, r2) ->
  rootfinder_new (mkSolverParameters n tol (m1 + m2) NewtonRaphson d) x0 its conf = Ret rf_c ->
  exists rf3, solve M rf_c s = Ret (rf3, s2, r2) /\ rf_iter rf3 = m1 + rf_iter rf2.
Proof.
  intros F NF IF St EI EU M n tol m1 m2 d x0 its conf rf_a rf_b rf_c s rf1 s1 rf2 s2 r2
    HR NA SA NB SB NC.
  apply built in NA, NB, NC.
  assert (EA : rf_a = with_limits tol m1 rf_a) by (rewrite NA; reflexivity).
  assert (EC : rf_c = with_limits tol (m1 + m2) rf_a) by (rewrite NA, NC; reflexivity).
  assert (H := stops_earlier M tol (m1 + m2) tol m1 rf_a s (fun e h => h) ltac:(lia)
    ltac:(rewrite NA; reflexivity)).
  rewrite <- EA, <- EC, SA in H. destruct H as (_ & H).
  destruct (H (or_intror eq_refl)) as (me & Hv & Hc & Hrf & (e & He & Hme) & fuel & Hf & HS).
  destruct (solve_counter _ _ _ _ _ _ SA) as (Hcfg & _ & Hcnt).
  assert (G : ngtb me tol = true).
  { destruct (ngtb me tol) eqn:G; [reflexivity|]. exfalso.
    assert (V : met (@verdict F NF EI EU rf1 me)).
    { apply verdict_met. rewrite Hrf. exact G. }
    rewrite <- Hv in V. destruct V as [V|V]; discriminate V. }
  assert (I1 : rf_iter rf1 = m1).
  { unfold continues in Hc. rewrite Hrf in Hc.
    cbn [with_limits rebuilt rf_parameters sp_tolerance sp_max_iter rf_iter] in Hc.
    rewrite G in Hc. cbn [andb] in Hc. apply Nat.ltb_ge in Hc.
    rewrite NA in Hcnt. cbn [rf_iter rf_parameters sp_max_iter] in Hcnt. lia. }
  (* the new solver sees the state that the first one left *)
  assert (EV : exists r0, evaluate M (set_iteratives M s1 (get_iteratives M s1)) = Ret (s1, r0) /\
     status_of r0 <> SUnusable).
  { apply C08_final_state_is_an_evaluation in SA; [|auto].
    destruct SA as (s0 & x & r0 & Q & Q'). exists r0. split; [eapply HR; exact Q|exact Q']. }
  destruct EV as (r0 & EV & OK).
  assert (SF : solve_from M rf_b s1 = Ret (rf2, s2, r2)).
  { unfold solve in SB. replace (rf_initial_guess rf_b) with (get_iteratives M s1) in SB
      by (rewrite NB; reflexivity).
    rewrite EV in SB. cbn [bind] in SB. destruct r0 as [u|[x|x]]; [exact SB|exact SB|].
    exfalso. apply OK. reflexivity. }
  unfold solve_from in SF.
  assert (EE : evaluate_errors M rf_b s1 = Ret e).
  { rewrite <- He. unfold evaluate_errors. destruct Hcfg as (_ & _ & _ & Hrc & _). rewrite Hrc, NA, NB.
    reflexivity. }
  rewrite EE in SF. cbn [bind] in SF. unfold when_debug in SF.
  replace (rf_debug rf_b) with false in SF by (rewrite NB; reflexivity). cbn [bind] in SF.
  replace (sp_max_iter (rf_parameters rf_b)) with m2 in SF by (rewrite NB; reflexivity).
  rewrite <- Hme in SF.
  assert (SH : shifted m1 (rebuilt tol (m1 + m2) x0 rf_b) (with_limits tol (m1 + m2) rf1)).
  { destruct Hcfg as (C1 & C2 & C3 & C4 & C5). rewrite NA in C1, C2, C3, C4, C5.
    unfold shifted, same_config, with_limits, rebuilt. rewrite NB.
    cbn [rf_parameters rf_initial_guess rf_iters_params rf_residuals_config rf_debug rf_iter
      sp_problem_size sp_resolution_method sp_damping] in *.
    rewrite C1, C2, C3, C4, C5, I1. repeat split. }
  assert (R := resumed_iterate M m1 tol m2 x0 (S m2) fuel rf_b _ s1 me SH
    ltac:(rewrite NB; reflexivity) ltac:(rewrite NB; reflexivity) ltac:(lia)
    ltac:(rewrite NB; cbn [rf_iter]; lia)).
  destruct (iterate M (S m2) rf_b s1 me) as [[[a' t1] ra]|]; [|discriminate SF].
  destruct (iterate M fuel (with_limits tol (m1 + m2) rf1) s1 me) as [[[b' t2] rb]|]; [|destruct R].
  cbn in R. destruct R as (R1 & <- & <- & R2 & R3). cbn [bind] in SF, HS.
  injection SF as -> -> <-. rewrite HS. exists b'.
  assert (R1' := R1). destruct R1' as ((P & _) & _ & _ & K). cbn [rebuilt rf_iter rf_parameters] in P, K.
  split; [|lia]. do 3 f_equal. destruct ra as [me2|x]; [|reflexivity].
  unfold verdict. rewrite P, R2. cbn [sp_tolerance].
  destruct R3 as [(-> & -> & E)|R3].
  - injection E as ->. rewrite G. reflexivity.
  - rewrite (R3 _ eq_refl). reflexivity.
Qed.
Print Assumptions C75_resume.

(** Executed on x^2 = 2 from 100: three iterations, then a new solver. *)
Definition resumed (m : resolution_method) (p : nat -> nat -> bool) : bool :=
  let M := model_from_function_and_jacobian sq2 sq2_jac in
  let rf k x := sample_rf (params6 1 k m false) x (jac_its 1) (abs_conf 1) in
  check_run (solve M (rf 3 [Fz 100]) (user_model_new 1))
    (fun _ s1 r1 => is_nonconv r1 &&
       check_run (solve M (rf 47 (get_iteratives M s1)) s1)
         (fun rf2 _ r2 => is_ok r2 &&
            check_run (solve M (rf 50 [Fz 100]) (user_model_new 1))
              (fun rf3 _ r3 => is_ok r3 && p (rf_iter rf2) (rf_iter rf3)))).

Example C75_case : resumed NewtonRaphson (fun n2 n3 => Nat.eqb n3 (3 + n2) && Nat.ltb 0 n2) = true.
Proof. vm_compute. reflexivity. Qed.

(** A quasi-Newton solver does not resume: the new one evaluates a new jacobian,
    its first iterate is not the fourth of the long run. *)
Example C75_quasi_newton :
  let M := model_from_function_and_jacobian sq2 sq2_jac in
  let rf k x := sample_rf (params6 1 k broy1 false) x (jac_its 1) (abs_conf 1) in
  check_run (solve M (rf 3 [Fz 100]) (user_model_new 1))
    (fun _ s1 r1 => is_nonconv r1 &&
       check_run (solve M (rf 1 (get_iteratives M s1)) s1)
         (fun _ s2 r2 => is_nonconv r2 &&
            check_run (solve M (rf 4 [Fz 100]) (user_model_new 1))
              (fun _ s3 r3 => is_nonconv r3 &&
                 negb (forallb (fun p => neqb (fst p) (snd p))
                         (combine (um_inputs s2) (um_inputs s3)))))) = true.
Proof. vm_compute. reflexivity. Qed.
