(** The verdict of [solve] in terms of the final state. *)
From Coq Require Import Reals Lra.
From Flocq Require Import Core BinarySingleNaN.
From Verif Require Import Base Num Linalg Residuals Iteratives UserModel Jacobian Solver
  Tactics FlowFacts F64 F64Facts Spec ResidualFacts.
Open Scope nat_scope.

Section Verdict.
Context {F : Type} {NF : Num F} {IF : Inverter F}.
Context {St EI EU : Type} (M : Model F St EI EU).
Notation rootfinder := (rootfinder F).

(** The three verdicts that are not errors of the model or of the jacobian. *)
Definition is_verdict (r : result unit (solver_error EI EU)) : Prop :=
  r = Ok tt \/ r = Err NonConvergenceError \/ r = Err FinalEvaluationError.

Lemma iteration_no_verdict : forall rf p rf' p' (x : solver_error EI EU),
  iteration M rf p = Ret (rf', p', Err x) ->
  x <> NonConvergenceError /\ x <> FinalEvaluationError.
Proof.
  intros rf p rf' p' x H. apply iteration_inv in H. destruct H as (rf3 & s3 & r3 & _ & H).
  destruct r3.
  - apply update_model_inv in H.
    destruct H as (_ & _ & _ & _ & _ & [(y & _ & _ & _ & Hy)|(en & Hy & _)]);
      [injection Hy as ->; split; discriminate|discriminate Hy].
  - destruct H as (_ & _ & Hy). injection Hy as ->. split; discriminate.
Qed.

Lemma verdict_state : forall rf s rf' s' r,
  solve M rf s = Ret (rf', s', r) -> is_verdict r ->
  exists v e, get_residuals M s' = Ret v /\
    evaluate_stopping_residuals (rf_residuals_config rf) v = Ret e /\
    same_config rf rf' /\
    rf_iter rf <= rf_iter rf' /\
    (rf_iter rf' = rf_iter rf \/ rf_iter rf' <= sp_max_iter (rf_parameters rf)) /\
    (ngtb (amax e) (sp_tolerance (rf_parameters rf)) = false \/
     sp_max_iter (rf_parameters rf) <= rf_iter rf') /\
    r = if ngtb (amax e) (sp_tolerance (rf_parameters rf)) then Err NonConvergenceError
        else if rf_valid_last rf' then Ok tt else Err FinalEvaluationError.
Proof.
  intros rf s rf' s' r H Hr. apply solve_inv in H.
  destruct H as (s1 & r1 & _ & [(x & _ & _ & _ & ->)|(_ & H)]).
  { destruct Hr as [Hr|[Hr|Hr]]; discriminate Hr. }
  apply solve_from_tracked in H.
  destruct H as [(me & (Hc & Hle & Hi & e & He & ->) & Hcont & ->)|(rf0 & s0 & me0 & x & _ & _ & Hit & ->)].
  - assert (Hp : rf_parameters rf' = rf_parameters rf) by apply Hc.
    assert (Hrc : rf_residuals_config rf' = rf_residuals_config rf) by apply Hc.
    unfold evaluate_errors in He. minv1 He. rewrite Hrc in He. exists x, e.
    split; [reflexivity|]. split; [exact He|]. split; [exact Hc|]. split; [exact Hle|].
    split; [exact Hi|]. unfold continues in Hcont. unfold verdict. rewrite Hp in *.
    split; [|reflexivity].
    destruct (ngtb (amax e) _); [|left; reflexivity].
    right. cbn [andb] in Hcont. apply Nat.ltb_ge in Hcont. exact Hcont.
  - apply iteration_no_verdict in Hit. destruct Hit.
    destruct Hr as [Hr|[Hr|Hr]]; congruence.
Qed.

(** The iteration counter in all cases. *)
Lemma solve_counter : forall rf s rf' s' r,
  solve M rf s = Ret (rf', s', r) ->
  same_config rf rf' /\ rf_iter rf <= rf_iter rf' /\
  (rf_iter rf' = rf_iter rf \/ rf_iter rf' <= sp_max_iter (rf_parameters rf)).
Proof.
  intros rf s rf' s' r H. apply solve_inv in H.
  destruct H as (s1 & r1 & _ & [(x & _ & -> & _ & ->)|(_ & H)]).
  { split; [apply same_config_refl|]. auto. }
  apply solve_from_tracked in H.
  destruct H as [(me & (Hc & Hle & Hi & _) & _ & _)|(rf0 & s0 & me0 & x & (Hc & Hle & Hi & _) & Hcont & Hit & ->)].
  - auto.
  - apply iteration_fields in Hit. destruct Hit as (Hc1 & Hi1 & _).
    unfold continues in Hcont. apply andb_prop in Hcont. destruct Hcont as (_ & Hlt).
    apply Nat.ltb_lt in Hlt. assert (Hp : rf_parameters rf0 = rf_parameters rf) by apply Hc.
    rewrite Hp in Hlt.
    split; [eapply same_config_trans; eauto|]. split; lia.
Qed.

End Verdict.

(** *** Facts on the max-norm of a stopping vector, on [f64] *)

Lemma nabs_nabs : forall x : f64, nabs (nabs x) = nabs x.
Proof. intros []; reflexivity. Qed.

Lemma amax_in_fold : forall v (acc : f64),
  fold_left amax_step v acc = acc \/ exists x, In x v /\ fold_left amax_step v acc = nabs x.
Proof.
  induction v as [|x v IH]; intros acc; cbn [fold_left]; [auto|].
  destruct (IH (amax_step acc x)) as [->|(y & Hy & ->)].
  - unfold amax_step. cbv zeta. destruct (ngeb _ _); [auto|]. right. exists x. cbn; auto.
  - right. exists y. cbn; auto.
Qed.
Lemma amax_in : forall v : vec f64,
  (v = [] /\ amax v = n0) \/ exists x, In x v /\ amax v = nabs x.
Proof.
  intros [|x v]; [left; split; reflexivity|]. right.
  change (amax (x :: v)) with (fold_left amax_step v (nabs x)).
  destruct (amax_in_fold v (nabs x)) as [->|(y & Hy & ->)]; [exists x|exists y]; cbn; auto.
Qed.

Lemma stopping_abs : forall ms (v : residuals_values f64) r,
  stopping_residual ms v r -> nabs r = r.
Proof. intros ms v r (i & m & x & y & _ & ->). apply nabs_nabs. Qed.

(** The stopping vector compared with the tolerance. *)
Lemma stopping_max : forall c (v : residuals_values f64) e tol,
  evaluate_stopping_residuals c v = Ret e ->
  (ngtb (amax e) tol = true ->
     (exists r, stopping_residual (stopping_criterias c) v r /\ nltb tol r = true) \/
     nltb tol n0 = true) /\
  (is_nan tol = false ->
   (forall r, stopping_residual (stopping_criterias c) v r -> is_nan r = false) ->
   ngtb (amax e) tol = false ->
   forall r, stopping_residual (stopping_criterias c) v r -> nleb r tol = true).
Proof.
  intros c v e tol H. apply stopping_vector in H. destruct H as (_ & Hlen & Hin & Hout).
  split.
  - intros Hgt. unfold ngtb in Hgt. destruct (amax_in e) as [(-> & Hx)|(x & Hx & Hm)].
    + rewrite Hx in Hgt. auto.
    + rewrite Hm in Hgt. destruct (Hout x Hx) as [Hs|(_ & ->)].
      * left. exists x. split; [exact Hs|]. now rewrite (stopping_abs _ _ _ Hs) in Hgt.
      * right. exact Hgt.
  - intros Ht Hnn Hle r Hr. unfold ngtb in Hle.
    assert (Hall : Forall (fun x => isnan x = false) e).
    { apply Forall_forall. intros x Hx. destruct (Hout x Hx) as [Hs|(_ & ->)]; [auto|reflexivity]. }
    destruct (amax_spec e Hall) as (Hm & Hb & _).
    rewrite Forall_forall in Hb. specialize (Hb r (Hin r Hr)).
    rewrite (stopping_abs _ _ _ Hr) in Hb.
    eapply leb_trans; [exact Hb|]. apply ltb_false_leb; auto.
Qed.
