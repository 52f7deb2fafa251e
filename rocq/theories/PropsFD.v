(** The finite-difference jacobian: C26 (its entries) and C54 (the memory of
    the model), for every arithmetic. *)
From Verif Require Import Base Num Linalg Residuals Iteratives UserModel Jacobian Solver
  Trace Spec Tactics F64 Samples FlowFacts TraceFacts ResidualFacts SafeFacts Reach.

Section FD.
Context {F : Type} {NF : Num F} {IF : Inverter F}.

(** [x + d e_j] *)
Definition shift (x : vec F) (j : nat) (d : F) : vec F :=
  firstn j x ++ match skipn j x with
                | a :: r => nadd a d :: r
                | [] => []
                end.

(** [r] is component [i] of the update residuals of the values [v]. *)
Definition update_residual (conf : residuals_config) (v : residuals_values F)
  (i : nat) (r : F) : Prop :=
  exists m a b, equation (update_methods conf) v i m a b /\ r = residual m a b.

Lemma update_at_shift d : forall x j x',
  update_at x j (fun a => nadd a d) = Ret x' -> x' = shift x j d /\ j < length x.
Proof.
  induction x as [|a x IH]; intros [|j] x' E; cbn [update_at] in E; try discriminate.
  - injection E as <-; split; [reflexivity|cbn; lia].
  - destruct (update_at x j (fun a0 => nadd a0 d)) as [w|p] eqn:U; [|discriminate].
    cbn [bind] in E; injection E as <-; destruct (IH j w U) as [-> L].
    split; [reflexivity|cbn; lia].
Qed.

Lemma shift_size x j d : length (shift x j d) = length x.
Proof.
  unfold shift; revert j; induction x as [|a x IH]; intros [|j]; cbn [firstn skipn app length]; try reflexivity.
  rewrite IH; reflexivity.
Qed.

Lemma update_residuals_entries conf (v : residuals_values F) res i :
  evaluate_update_residuals conf v = Ret res -> i < length (update_methods conf) ->
  exists r, nth_error res i = Some r /\ update_residual conf v i r.
Proof.
  intros E L; unfold evaluate_update_residuals in E.
  destruct (evaluate_residuals_inv _ _ _ _ _ E) as (_ & _ & _ & K & _).
  destruct (nth_error (update_methods conf) i) as [m|] eqn:Em.
  - destruct (K i m Em) as (x & y & Ex & Ey & Er).
    exists (normalization x y m); split; [exact Er|].
    exists m, x, y; split; [repeat split; assumption|apply normalization_spec].
  - apply nth_error_None in Em; lia.
Qed.

Context {St EI EU : Type} (M : Model F St EI EU).

Definition usable {A} (r : result A (model_error EI EU)) : Prop :=
  forall e, r <> Err (UnusableValuesError e).

Lemma columns_inv (G : vec F -> residuals_values F) (Good : St -> Prop) conf n mem xref rref pert :
  (forall s x s1 r, Good s -> length x = length xref ->
     evaluate M (set_iteratives M s x) = Ret (s1, r) -> usable r ->
     get_residuals M s1 = Ret (G x) /\ Good (set_memory M s1 mem)) ->
  forall todo i s s' cols,
  finite_difference_columns M conf n mem xref rref pert todo i s = Ret (s', Ok cols) ->
  Good s -> Good s' /\ length cols = todo /\
  forall k, k < todo -> exists d res diff,
    nth_error pert (i + k) = Some d /\
    evaluate_update_residuals conf (G (shift xref (i + k) d)) = Ret res /\
    vsub res rref = Ret diff /\ nth_error cols k = Some (vdiv diff d) /\ length (vdiv diff d) = n.
Proof.
  intros HG; induction todo as [|todo IH]; intros i s s' cols E Gs; cbn [finite_difference_columns] in E.
  - injection E as <- <-; split; [exact Gs|]; split; [reflexivity|]; intros; lia.
  - unfold index in E; destruct (nth_error pert i) as [d|] eqn:Ed; [|discriminate]; cbn [bind] in E.
    destruct (update_at xref i (fun xi => nadd xi d)) as [x|p] eqn:Ex; [|discriminate]; cbn [bind] in E.
    destruct (evaluate M (set_iteratives M s x)) as [[s1 r]|p] eqn:Ee; [|discriminate]; cbn [bind] in E.
    destruct (update_at_shift d _ _ _ Ex) as [-> Lx].
    assert (U : usable r).
    { intros e Q; subst r; discriminate. }
    destruct (HG s _ s1 r Gs (shift_size _ _ _) Ee U) as [R1 G1].
    assert (E' : (values <- get_residuals M s1 ;;
          res <- evaluate_update_residuals conf values ;;
          diff <- vsub res rref ;;
          guard_shape (Nat.eqb (length (vdiv diff d)) n) (
            '(s2, rest) <- finite_difference_columns M conf n mem xref
                             rref pert todo (S i)
                             (set_memory M s1 mem) ;;
            Ret (s2, match rest with
                     | Ok cols => Ok (vdiv diff d :: cols)
                     | Err e => Err e
                     end))) = Ret (s', Ok cols)).
    { destruct r as [u|[e|e]]; [exact E|exact E|exfalso; exact (U e eq_refl)]. }
    clear E; rewrite R1 in E'; cbn [bind] in E'.
    destruct (evaluate_update_residuals conf _) as [res|p] eqn:Er; [|discriminate]; cbn [bind] in E'.
    destruct (vsub res rref) as [diff|p] eqn:Ev; [|discriminate]; cbn [bind] in E'.
    destruct (Nat.eqb (length (vdiv diff d)) n) eqn:EL; [|discriminate]; cbn [guard_shape] in E'.
    destruct (finite_difference_columns M conf n mem xref rref pert todo (S i) (set_memory M s1 mem))
      as [[s2 rest]|p] eqn:EC; [|discriminate]; cbn [bind] in E'.
    destruct rest as [cs|e]; [|discriminate]; injection E' as <- <-.
    destruct (IH _ _ _ _ EC G1) as (G2 & LC & K).
    split; [exact G2|]; split; [cbn; lia|].
    intros [|k] Hk.
    + rewrite Nat.add_0_r; exists d, res, diff; repeat split; auto.
      apply Nat.eqb_eq, EL.
    + rewrite Nat.add_succ_r, <- Nat.add_succ_l; apply K; lia.
Qed.

(** The common content of the two properties. *)
Lemma jacobian_entries (G : vec F -> residuals_values F) (Good : St -> Prop) conf dx n s s' A v :
  (forall s0 x s1 r, Good s0 -> length x = length (get_iteratives M s) ->
     evaluate M (set_iteratives M s0 x) = Ret (s1, r) -> usable r ->
     get_residuals M s1 = Ret (G x) /\ Good (set_memory M s1 (get_memory M s))) ->
  get_residuals M s = Ret v -> Good s ->
  length dx = n -> len_problem M s = n -> length (update_methods conf) = n ->
  compute_jacobian_from_finite_difference M s dx conf = Ret (s', Ok A) ->
  Good s' /\ length A = n /\ forall i j, i < n -> j < n -> exists d row f0 f1,
    nth_error dx j = Some d /\ nth_error A i = Some row /\ length row = n /\
    update_residual conf v i f0 /\
    update_residual conf (G (shift (get_iteratives M s) j d)) i f1 /\
    nth_error row j = Some (ndiv (nsub f1 f0) d).
Proof.
  intros HG Rs Gs Ld Lp Lm E.
  unfold compute_jacobian_from_finite_difference in E; rewrite Rs, Ld, Lp in E; cbn [bind] in E.
  destruct (evaluate_update_residuals conf v) as [r0|p] eqn:E0; [|discriminate]; cbn [bind] in E.
  destruct (finite_difference_columns M conf n (get_memory M s) (get_iteratives M s) r0 dx n 0 s)
    as [[s2 rest]|p] eqn:EC; [|discriminate]; cbn [bind] in E.
  destruct rest as [cols|e]; [|discriminate]; injection E as <- <-.
  destruct (columns_inv G Good conf n _ _ r0 dx HG n 0 s s2 cols EC Gs) as (G2 & LC & K).
  split; [exact G2|]; split; [apply length_mat_of_cols|].
  intros i j Hi Hj; destruct (K j Hj) as (d & res & diff & Ed & Er & Ev & Ec & El).
  rewrite Nat.add_0_l in Ed, Er.
  destruct (update_residuals_entries conf v r0 i E0) as (f0 & N0 & U0); [lia|].
  destruct (update_residuals_entries conf _ res i Er) as (f1 & N1 & U1); [lia|].
  exists d, (map (fun c => nth i c n0) cols ++ vzeros (n - length cols)), f0, f1.
  split; [exact Ed|]; split.
  { unfold mat_of_cols; rewrite nth_error_map, nth_error_nth' with (d := 0) by (rewrite seq_length; exact Hi).
    rewrite seq_nth by exact Hi; reflexivity. }
  split.
  { rewrite app_length, map_length; unfold vzeros; rewrite repeat_length.
    change (@length (list F) cols) with (@length (vec F) cols); rewrite LC; lia. }
  split; [exact U0|]; split; [exact U1|].
  rewrite nth_error_app1 by (rewrite map_length; change (@length (list F) cols) with (@length (vec F) cols); rewrite LC; exact Hj).
  rewrite nth_error_map; change (@nth_error (list F) cols j) with (@nth_error (vec F) cols j).
  rewrite Ec; cbn [option_map]; f_equal.
  apply nth_error_nth; unfold vdiv; rewrite nth_error_map.
  unfold vsub in Ev; destruct (Nat.eqb (length res) (length r0)) eqn:EQ; [|discriminate].
  injection Ev as <-.
  assert (Q : nth_error (vsub_raw res r0) i = Some (nsub f1 f0)).
  { unfold vsub_raw; clear - N0 N1; revert i r0 N0 N1.
    induction res as [|a res IH]; intros [|i] [|b r0] N0 N1; cbn in *; try discriminate.
    - congruence.
    - apply IH; assumption. }
  rewrite Q; reflexivity.
Qed.

(** *** C26 *)

(** From the states [Good], which evaluations do not leave, the residuals after
    a usable evaluation are a function of the point (of size [n]). *)
Definition depends_only_on_iteratives (Good : St -> Prop) (n : nat) (G : vec F -> residuals_values F)
  : Prop :=
  forall s x s1 r, Good s -> length x = n ->
  evaluate M (set_iteratives M s x) = Ret (s1, r) -> usable r ->
  get_residuals M s1 = Ret (G x) /\ forall m, Good (set_memory M s1 m).

Theorem C26_entries : forall Good G conf dx n s s' A,
  depends_only_on_iteratives Good n G -> Good s -> length (get_iteratives M s) = n ->
  get_residuals M s = Ret (G (get_iteratives M s)) ->
  length dx = n -> len_problem M s = n -> length (update_methods conf) = n ->
  compute_jacobian_from_finite_difference M s dx conf = Ret (s', Ok A) ->
  length A = n /\ forall i j, i < n -> j < n -> exists d row f0 f1,
    nth_error dx j = Some d /\ nth_error A i = Some row /\ length row = n /\
    update_residual conf (G (get_iteratives M s)) i f0 /\
    update_residual conf (G (shift (get_iteratives M s) j d)) i f1 /\
    nth_error row j = Some (ndiv (nsub f1 f0) d).
Proof.
  intros Good G conf dx n s s' A HG Gs Lx Rs Ld Lp Lm E.
  apply (jacobian_entries G Good conf dx n s s' A (G (get_iteratives M s))); auto.
  intros s0 x s1 r G0 L Ee U; destruct (HG _ _ _ _ G0 (eq_trans L Lx) Ee U) as [R1 G1]; auto.
Qed.

(** *** C54 *)

(** The residuals are a function of the point and of the memory the evaluation
    started from, and the memory given back is the memory read afterwards. *)
Definition depends_on_memory (G : vec F -> vec F -> residuals_values F) : Prop :=
  (forall s x s1 r, evaluate M (set_iteratives M s x) = Ret (s1, r) -> usable r ->
     get_residuals M s1 = Ret (G x (get_memory M s))) /\
  (forall s m, get_memory M (set_memory M s m) = m).

Theorem C54_same_memory : forall G conf dx n s s' A v,
  depends_on_memory G ->
  get_residuals M s = Ret v ->
  length dx = n -> len_problem M s = n -> length (update_methods conf) = n ->
  compute_jacobian_from_finite_difference M s dx conf = Ret (s', Ok A) ->
  get_memory M s' = get_memory M s /\
  length A = n /\ forall i j, i < n -> j < n -> exists d row f0 f1,
    nth_error dx j = Some d /\ nth_error A i = Some row /\ length row = n /\
    update_residual conf v i f0 /\
    update_residual conf (G (shift (get_iteratives M s) j d) (get_memory M s)) i f1 /\
    nth_error row j = Some (ndiv (nsub f1 f0) d).
Proof.
  intros G conf dx n s s' A v [HG HM] Rs Ld Lp Lm E.
  apply (jacobian_entries (fun x => G x (get_memory M s))
           (fun s0 => get_memory M s0 = get_memory M s) conf dx n s s' A v); auto.
  intros s0 x s1 r Q _ Ee U; split; [rewrite <- Q; exact (HG _ _ _ _ Ee U)|apply HM].
Qed.

(** The calls, whatever the model: every perturbed evaluation which does not
    stop the computation is followed by [set_memory] with the memory read at the
    start; the points are the perturbed points. *)
Lemma columns_calls conf n mem xref rref pert : forall todo i s t p r,
  finite_difference_columns (traced M) conf n mem xref rref pert todo i (s, t) = Ret (p, r) ->
  exists cs, length cs <= todo /\
  (forall k c, nth_error cs k = Some c -> snd c <> SUnusable /\
     exists d, nth_error pert (i + k) = Some d /\ fst c = shift xref (i + k) d) /\
  match r with
  | Ok _ => snd p = t ++ fd_block mem cs /\ length cs = todo
  | Err _ => length cs < todo /\ exists d,
      nth_error pert (i + length cs) = Some d /\
      snd p = t ++ fd_block mem cs ++ [ESet (shift xref (i + length cs) d); EEval SUnusable]
  end.
Proof.
  induction todo as [|todo IH]; intros i s t p r E; cbn [finite_difference_columns] in E.
  - injection E as <- <-; exists []; split; [cbn; lia|]; split.
    + intros [|k] c Q; discriminate.
    + cbn [fd_block flat_map snd]; rewrite app_nil_r; auto.
  - unfold index in E; destruct (nth_error pert i) as [d|] eqn:Ed; [|discriminate]; cbn [bind] in E.
    destruct (update_at xref i (fun xi => nadd xi d)) as [x|q] eqn:Ex; [|discriminate]; cbn [bind] in E.
    destruct (evaluate (traced M) (set_iteratives (traced M) (s, t) x)) as [[p1 r1]|q] eqn:Ee;
      [|discriminate]; cbn [bind] in E.
    destruct (update_at_shift d _ _ _ Ex) as [-> Lx].
    destruct (traced_set_eval_inv M _ _ _ _ _ Ee) as (s1 & Em & ->).
    assert (C : (exists e, r1 = Err (UnusableValuesError e)) \/ status_of r1 <> SUnusable).
    { destruct r1 as [u|[e|e]]; [right; discriminate|right; discriminate|left; eauto]. }
    destruct C as [[e ->]|U].
    + injection E as <- <-; exists []; split; [cbn; lia|]; split.
      * intros [|k] c Q; discriminate.
      * split; [cbn; lia|]; exists d; cbn [length]; rewrite Nat.add_0_r; split; [exact Ed|reflexivity].
    + assert (E' : (values <- get_residuals (traced M) (s1, t ++ [ESet (shift xref i d); EEval (status_of r1)]) ;;
          res <- evaluate_update_residuals conf values ;;
          diff <- vsub res rref ;;
          guard_shape (Nat.eqb (length (vdiv diff d)) n) (
            '(s2, rest) <- finite_difference_columns (traced M) conf n mem xref
                             rref pert todo (S i)
                             (set_memory (traced M)
                                (s1, t ++ [ESet (shift xref i d); EEval (status_of r1)]) mem) ;;
            Ret (s2, match rest with
                     | Ok cols => Ok (vdiv diff d :: cols)
                     | Err e => Err e
                     end))) = Ret (p, r)).
      { destruct r1 as [u|[e|e]]; [exact E|exact E|exfalso; exact (U eq_refl)]. }
      clear E; destruct (get_residuals (traced M) _) as [v|q]; [|discriminate]; cbn [bind] in E'.
      destruct (evaluate_update_residuals conf _) as [res|q] eqn:Er; [|discriminate]; cbn [bind] in E'.
      destruct (vsub res rref) as [diff|q] eqn:Ev; [|discriminate]; cbn [bind] in E'.
      destruct (Nat.eqb (length (vdiv diff d)) n) eqn:EL; [|discriminate]; cbn [guard_shape] in E'.
      destruct (finite_difference_columns (traced M) conf n mem xref rref pert todo (S i) _)
        as [[p2 rest]|q] eqn:EC; [|discriminate]; cbn [bind] in E'.
      destruct (IH _ _ _ _ _ EC) as (cs & L1 & K & T).
      injection E' as -> <-.
      exists ((shift xref i d, status_of r1) :: cs); split; [cbn; lia|]; split.
      * intros [|k] c Q; cbn [nth_error] in Q.
        -- injection Q as <-; split; [exact U|]; exists d; rewrite Nat.add_0_r; auto.
        -- destruct (K k c Q) as (K1 & K2); split; [exact K1|].
           rewrite Nat.add_succ_r, <- Nat.add_succ_l; exact K2.
      * cbn [snd] in T; unfold fd_block in *; cbn [flat_map fst snd length].
        destruct rest as [cols|e].
        -- destruct T as (T & L2); split; [|lia]; rewrite T, <- !app_assoc; reflexivity.
        -- destruct T as (L2 & d' & Ed' & T); split; [lia|]; exists d'.
           rewrite Nat.add_succ_r, <- Nat.add_succ_l; split; [exact Ed'|].
           rewrite T, <- !app_assoc; reflexivity.
Qed.

Theorem C54_restored : forall conf dx s t p r,
  compute_jacobian_from_finite_difference (traced M) (s, t) dx conf = Ret (p, r) ->
  exists cs, length cs <= len_problem M s /\
  (forall k c, nth_error cs k = Some c -> snd c <> SUnusable /\
     exists d, nth_error dx k = Some d /\ fst c = shift (get_iteratives M s) k d) /\
  match r with
  | Ok _ => snd p = t ++ fd_block (get_memory M s) cs /\ length cs = len_problem M s
  | Err _ => length cs < len_problem M s /\ exists d, nth_error dx (length cs) = Some d /\
      snd p = t ++ fd_block (get_memory M s) cs
                ++ [ESet (shift (get_iteratives M s) (length cs) d); EEval SUnusable]
  end.
Proof.
  intros conf dx s t p r E; unfold compute_jacobian_from_finite_difference in E.
  destruct (get_residuals (traced M) (s, t)) as [v|q]; [|discriminate]; cbn [bind] in E.
  destruct (evaluate_update_residuals conf v) as [r0|q]; [|discriminate]; cbn [bind] in E.
  destruct (finite_difference_columns _ _ _ _ _ _ _ _ _ _) as [[p2 rest]|q] eqn:EC; [|discriminate].
  cbn [bind] in E.
  destruct (columns_calls _ _ _ _ _ _ _ _ _ _ _ _ EC) as (cs & L & K & T).
  exists cs; split; [exact L|]; split; [exact K|].
  destruct rest as [cols|e]; injection E as <- <-; exact T.
Qed.

(** The next iterate, when the iteration computes the jacobian by finite
    differences and does not damp, is evaluated from the memory the iteration
    started from. *)
Theorem C54_next_iterate : forall G rf s rf' s' e n v,
  depends_on_memory G ->
  get_residuals M s = Ret v ->
  jacobian_provided M s = false ->
  is_quasi_newton (sp_resolution_method (rf_parameters rf)) = false \/
    jm_compute_at_next (rf_jacobian rf) = true ->
  sp_damping (rf_parameters rf) = false ->
  length (rf_iters_params rf) = n -> length (get_iteratives M s) = n ->
  len_problem M s = n -> length (update_methods (rf_residuals_config rf)) = n ->
  (forall it x, In it (rf_iters_params rf) -> safe (it_compute_perturbation it x) (fun _ => True)) ->
  iteration M rf s = Ret (rf', s', Ok e) ->
  exists g, get_residuals M s' = Ret (G g (get_memory M s)).
Proof.
  intros G rf s rf' s' e n v HD Rs JP CJ ND Li Lx Lp Lm SP E.
  destruct (iteration_inv M _ _ _ _ _ E) as (rf1 & s1 & r1 & ES & EU1).
  destruct r1 as [g|x]; [|destruct EU1 as (_ & _ & Q); discriminate].
  assert (MEM : get_memory M s1 = get_memory M s /\ sp_damping (rf_parameters rf1) = false).
  { split.
    2: { destruct (compute_step_inv M _ _ _ _ _ ES) as (SJ & _).
         destruct (same_but_jac_fields _ _ SJ) as ((-> & _) & _); exact ND. }
    assert (EJ : exists rf2 r2, compute_jac M (set_iter rf (S (rf_iter rf))) s = Ret (rf2, s1, r2) /\
                   r2 = Ok tt).
    { unfold compute_step in ES; cbn [rf_parameters set_iter] in ES.
      destruct (sp_resolution_method (rf_parameters rf)) as [|qm] eqn:EM.
      - unfold compute_newton_raphson_step in ES.
        destruct (compute_jac M _ s) as [[[rf2 s2] r2]|q]; [|discriminate]; cbn [bind] in ES.
        destruct (when_debug rf2 _) as [rf3|q]; [|discriminate]; cbn [bind] in ES.
        destruct r2 as [[]|x]; [|discriminate].
        destruct (compute_next_from_inv_jac M rf3 s2); [|discriminate]; cbn [bind] in ES.
        injection ES as _ <- _; eauto.
      - unfold compute_quasi_newton_step, evaluate_jacobian_quasi_newton_step in ES.
        cbn [rf_jacobian set_iter] in ES.
        destruct CJ as [Q|Q]; [discriminate Q|rewrite Q in ES].
        destruct (compute_jac M _ s) as [[[rf2 s2] r2]|q]; [|discriminate]; cbn [bind] in ES.
        destruct (when_debug rf2 _) as [rf3|q]; [|discriminate]; cbn [bind] in ES.
        destruct r2 as [[]|x]; [|discriminate].
        destruct (compute_next_from_inv_jac M rf3 s2); [|discriminate]; cbn [bind] in ES.
        injection ES as _ <- _; eauto. }
    destruct EJ as (rf2 & r2 & EJ & ->).
    destruct (compute_jac_inv M _ _ _ _ _ EJ) as (j & r0 & _ & EJ' & Er).
    rewrite JP in EJ'; cbn [rf_jacobian rf_iters_params rf_residuals_config set_iter] in EJ'.
    unfold evaluate_jacobian_from_finite_difference in EJ'.
    pose proof (compute_perturbations_safe (rf_iters_params rf) (get_iteratives M s)
                  ltac:(congruence) SP) as SPP.
    destruct (compute_perturbations _ _) as [dx|q]; [|discriminate]; cbn [bind safe] in EJ', SPP.
    destruct (compute_jacobian_from_finite_difference M s dx _) as [[s2 rj]|q] eqn:EF; [|discriminate].
    cbn [bind] in EJ'.
    destruct rj as [A|x].
    - destruct (update_jacobian_with_exact_value _ A) as [j1 ok]; injection EJ' as _ <- _.
      eapply C54_same_memory in EF; [|exact HD|exact Rs|exact (eq_trans SPP Lx)|exact Lp|exact Lm].
      exact (proj1 EF).
    - injection EJ' as _ _ <-.
      unfold compute_jacobian_from_finite_difference in EF; rewrite Rs in EF; cbn [bind] in EF.
      destruct (evaluate_update_residuals _ _); [|discriminate]; cbn [bind] in EF.
      destruct (finite_difference_columns _ _ _ _ _ _ _ _ _ _) as [[s3 rc]|q] eqn:EC; [|discriminate].
      cbn [bind] in EF; destruct rc as [cs|y]; [discriminate|]; injection EF as _ ->.
      destruct (fd_columns_err M _ _ _ _ _ _ _ _ _ _ _ EC) as (z & ->); discriminate. }
  destruct MEM as (MEM & ND').
  destruct (update_model_inv M _ _ _ _ _ _ EU1) as (e0 & s2 & r2 & _ & EE & [(x & _ & _ & _ & Q)|(en & Q & U & FU)]);
    [discriminate|].
  exists g; rewrite <- MEM.
  destruct (finish_update_inv M _ _ _ _ _ _ _ _ FU) as (_ & _ & _ & _ & [->|(D & _)]).
  - exact (proj1 HD _ _ _ _ EE U).
  - cbn [rf_parameters set_valid] in D; congruence.
Qed.

End FD.
Print Assumptions C26_entries.
Print Assumptions C54_same_memory.
Print Assumptions C54_restored.
Print Assumptions C54_next_iterate.

(** *** Concrete cases *)

(** A model with a memory, the last point it was evaluated at. The left members
    are [f x + m] and the right members [m], with [m] the memory. *)
Record remembering := mkRemembering {
  rm_x : vec f64;
  rm_values : residuals_values f64;
  rm_memory : vec f64
}.
Definition remembering_values (f : f64 -> f64) (x m : vec f64) : residuals_values f64 :=
  mkResidualsValues (map2 (fun a b => nadd (f a) b) x m) m.
Definition remembering_model (n : nat) (f : f64 -> f64) : Model f64 remembering Empty_set Empty_set :=
  mkModel (fun _ => n)
    (fun s x => mkRemembering x (rm_values s) (rm_memory s))
    rm_x
    (fun s => Ret (mkRemembering (rm_x s) (remembering_values f (rm_x s) (rm_memory s)) (rm_x s), Ok tt))
    (fun s => Ret (rm_values s))
    (fun _ => false)
    (default_get_jacobian rm_x)
    rm_memory
    (fun s m => mkRemembering (rm_x s) (rm_values s) m)
    show_infallible show_infallible.

Lemma remembering_depends n f : depends_on_memory (remembering_model n f) (remembering_values f).
Proof.
  split; [|reflexivity].
  intros s x s1 r E _; cbn in E; injection E as <- _; reflexivity.
Qed.

(** Two equations [x^2]; memory [(5,7)], perturbations 1 and 2: the jacobian
    holds the differences [(16 - 9) / 1] and [(36 - 16) / 2]. *)
Definition sq (a : f64) : f64 := nmul a a.
Definition rem_state : remembering :=
  mkRemembering [Fz 3; Fz 4] (mkResidualsValues [Fz 14; Fz 23] [Fz 5; Fz 7]) [Fz 5; Fz 7].
Definition f64_list_eq (u v : list f64) : bool :=
  Nat.eqb (length u) (length v) && forallb (fun p => neqb (fst p) (snd p)) (combine u v).
Example C26_C54_case :
  match compute_jacobian_from_finite_difference (remembering_model 2 sq) rem_state [Fz 1; Fz 2]
          (abs_conf 2) with
  | Ret (s', Ok [[a; b]; [c; d]]) =>
      f64_list_eq [a; b; c; d] [Fz 7; Fz 0; Fz 0; Fz 10] && f64_list_eq (rm_memory s') [Fz 5; Fz 7]
      && f64_list_eq (rm_x s') [Fz 3; Fz 6]
  | _ => false
  end = true.
Proof. vm_compute; reflexivity. Qed.

(** C26 on the sample [x^2 - 2] (no memory): entry [((1+dx)^2-2 - (1-2))/dx]. *)
Lemma scripted_depends n f js :
  (forall x, length (f x : vec f64) = length x) ->
  depends_only_on_iteratives (scripted_model n f None always_ok js) (fun _ => True) n
    (fun x => mkResidualsValues (f x) (vzeros (length (f x)))).
Proof.
  intros _ s x s1 r _ _ E _; cbn in E; injection E as <- _; cbn [get_residuals scripted_model sc_left].
  split; [|intros; exact I].
  unfold residuals_values_new, vzeros; rewrite repeat_length, Nat.eqb_refl; reflexivity.
Qed.
(** The models made from a function or a closure. *)
Lemma function_depends n (f : vec f64 -> vec f64) : (forall x, length x = n -> length (f x) = n) ->
  depends_only_on_iteratives (model_from_function f) (fun s => um_right s = vzeros n) n
    (fun x => mkResidualsValues (f x) (vzeros n)) /\
  depends_only_on_iteratives (model_from_closure f) (fun s => um_right s = vzeros n) n
    (fun x => mkResidualsValues (f x) (vzeros n)).
Proof.
  intros L; split; intros s x s1 r R Lx E _; injection E as <- _; (split; [|intros; exact R]);
    cbn [get_residuals model_from_function model_from_closure]; unfold um_get_residuals, residuals_values_new;
    cbn [um_left um_right um_inputs um_set_iteratives]; rewrite R, (L x Lx); unfold vzeros;
    rewrite repeat_length, Nat.eqb_refl; reflexivity.
Qed.
Example C26_case :
  match compute_jacobian_from_finite_difference (scripted_model 1 sq2 None always_ok always_ok)
          (mkScripted [Fz 3] (sq2 [Fz 3]) 0 0) [Fz 2] (abs_conf 1) with
  | Ret (s', Ok [[a]]) => neqb a (Fz 8) && f64_list_eq (sc_x s') [Fz 5]
  | _ => false
  end = true.
Proof. vm_compute; reflexivity. Qed.

(** With damping, the damped point is not evaluated from the memory the
    iteration started from: the memory is not given back between the evaluation
    of the proposed point and that of the damped point (rootfinder.rs:300-333). *)
Definition rem_rf (d : bool) : rootfinder f64 :=
  sample_rf (params6 1 5 NewtonRaphson d) [Fz 1] (fd_its 1) (abs_conf 1).
Definition sq4 (a : f64) : f64 := nadd (nmul a a) (Fz 4).
Definition rem_start : remembering :=
  mkRemembering [Fz 1] (remembering_values sq4 [Fz 1] [Fz 0]) [Fz 1].

Theorem C54_damped_point_refuted :
  exists rf0 s0 rf (s : remembering) me rf' s' e,
  depends_on_memory (remembering_model 1 sq4) (remembering_values sq4) /\
  sp_damping (rf_parameters rf) = true /\
  loop_head (remembering_model 1 sq4) rf0 s0 rf s me /\ continues rf me = true /\
  iteration (remembering_model 1 sq4) rf s = Ret (rf', s', Ok e) /\
  forall g, get_residuals (remembering_model 1 sq4) s' <>
            Ret (remembering_values sq4 g (get_memory (remembering_model 1 sq4) s)).
Proof.
  assert (H : check_iteration (remembering_model 1 sq4) (rem_rf true) rem_start 0
                (fun rf s _ _ s' _ =>
                   sp_damping (rf_parameters rf) &&
                   match rm_memory s, rv_right (rm_values s') with
                   | [m], [m'] => neqb m m && negb (neqb m' m)
                   | _, _ => false
                   end) = true) by (vm_compute; reflexivity).
  destruct (check_iteration_true _ _ _ _ _ H) as (rf & s & me & rf' & s' & e & LH & C & E & T).
  apply andb_prop in T; destruct T as [D T].
  exists (rem_rf true), rem_start, rf, s, me, rf', s', e.
  split; [apply remembering_depends|]; split; [exact D|]; split; [exact LH|].
  split; [exact C|]; split; [exact E|].
  intros g Q; cbn [get_residuals get_memory remembering_model] in Q; injection Q as Q.
  rewrite Q in T; unfold remembering_values in T; cbn [rv_right] in T.
  destruct (rm_memory s) as [|m [|m2 ms]]; [discriminate|idtac|discriminate].
  destruct (neqb m m); discriminate.
Qed.
Print Assumptions C54_damped_point_refuted.

(** The matrix computed is the one kept by the solver, with its inverse. *)
Theorem C26_stored : forall F (NF : Num F) (IF : Inverter F) St EI EU (M : Model F St EI EU)
  j s its conf j1 s1,
  evaluate_jacobian_from_finite_difference M j s its conf = Ret (j1, s1, Ok tt) ->
  exists dx A H, compute_perturbations its (get_iteratives M s) = Ret dx /\
    compute_jacobian_from_finite_difference M s dx conf = Ret (s1, Ok A) /\
    try_inverse A = Some H /\ jm_matrix j1 = Some A /\ jm_inverse j1 = Some H /\
    jm_approximated j1 = false /\ jm_compute_at_next j1 = false.
Proof.
  intros F NF IF St EI EU M j s its conf j1 s1 E; unfold evaluate_jacobian_from_finite_difference in E.
  destruct (compute_perturbations its (get_iteratives M s)) as [dx|q]; [|discriminate]; cbn [bind] in E.
  destruct (compute_jacobian_from_finite_difference M s dx conf) as [[s2 rj]|q] eqn:EF; [|discriminate].
  cbn [bind] in E; destruct rj as [A|x]; [|discriminate].
  unfold update_jacobian_with_exact_value, update_jacobian in E.
  destruct (try_inverse A) as [H|] eqn:T; [|discriminate].
  injection E as <- <-; exists dx, A, H; repeat split; auto.
Qed.
Print Assumptions C26_stored.
