(** Counting calls, and the place of an unusable evaluation in a run. *)
From Verif Require Import Base Num Linalg Residuals Iteratives UserModel Jacobian Solver
  Tactics FlowFacts FlagFacts Trace TraceFacts.

(** *** Counting the calls of a sequence of iterations *)
Definition fd_cost (j : jac_kind) : nat := match j with JFinite n => n | _ => 0 end.
Definition is_analytic (j : jac_kind) : bool := match j with JAnalytic => true | _ => false end.
Definition is_damped (x : iter_summary) : bool := sum_damped x.

Section Count.
Context {F : Type}.

Lemma evaluations_app : forall a b : list (event F),
  evaluations (a ++ b) = evaluations a + evaluations b.
Proof. intros. unfold evaluations. now rewrite filter_app, app_length. Qed.
Lemma jacobian_calls_app : forall a b : list (event F),
  jacobian_calls (a ++ b) = jacobian_calls a + jacobian_calls b.
Proof. intros. unfold jacobian_calls. now rewrite filter_app, app_length. Qed.

Lemma fd_block_evaluations : forall (mem : vec F) cols,
  evaluations (fd_block mem cols) = length cols /\ jacobian_calls (fd_block mem cols) = 0.
Proof.
  intros mem cols. induction cols as [|c cols IH]; [split; reflexivity|].
  destruct IH as (IH1 & IH2). unfold fd_block in *. cbn [flat_map].
  rewrite evaluations_app, jacobian_calls_app, IH1, IH2. split; reflexivity.
Qed.

Lemma jac_block_count : forall j (b : list (event F)), jac_block j b ->
  evaluations b = fd_cost j /\ jacobian_calls b = (if is_analytic j then 1 else 0).
Proof.
  intros j b H. destruct H as [|k|mem cols Hc]; try (split; reflexivity).
  apply fd_block_evaluations.
Qed.

Lemma iter_block_count : forall j k d (b : list (event F)), iter_block j k d b ->
  evaluations b = 1 + fd_cost j + (if d then 1 else 0) /\
  jacobian_calls b = (if is_analytic j then 1 else 0).
Proof.
  intros j k d b H. destruct H as [j x k t Hb Hk|j x k d t Hb Hk];
    apply jac_block_count in Hb; destruct Hb as (H1 & H2);
    rewrite evaluations_app, jacobian_calls_app, H1, H2; cbn; split; lia.
Qed.

Definition total (f : iter_summary -> nat) (l : list iter_summary) : nat :=
  fold_right (fun x a => f x + a) 0 l.
Lemma total_app : forall f a b, total f (a ++ b) = total f a + total f b.
Proof. intros f a b. unfold total. induction a; cbn; [reflexivity|]. rewrite IHa. lia. Qed.

Lemma iter_blocks_count : forall l (t : list (event F)), iter_blocks l t ->
  evaluations t = length l + total (fun x => fd_cost (sum_jac x)) l
                  + total (fun x => if sum_damped x then 1 else 0) l /\
  jacobian_calls t = total (fun x => if is_analytic (sum_jac x) then 1 else 0) l.
Proof.
  intros l t H. induction H as [|l t s b H IH Hb]; [split; reflexivity|].
  destruct IH as (IH1 & IH2). apply iter_block_count in Hb. destruct Hb as (H1 & H2).
  rewrite evaluations_app, jacobian_calls_app, !total_app, app_length, IH1, IH2, H1, H2.
  cbn. split; lia.
Qed.

(** *** How a run ends *)
Lemma last_evaluation_app : forall (a b : list (event F)),
  last_evaluation (a ++ b) =
  match last_evaluation b with Some k => Some k | None => last_evaluation a end.
Proof.
  induction a as [|e a IH]; intros b; cbn.
  - destruct (last_evaluation b); reflexivity.
  - destruct e; rewrite IH; destruct (last_evaluation b); reflexivity.
Qed.

(** Every completed iteration ends with [set_iteratives], [evaluate]; the
    status of this evaluation is that of the proposed point unless the
    iteration was damped. *)
Lemma iter_block_end : forall j k d (b : list (event F)), iter_block j k d b ->
  exists b0 x, b = b0 ++ [ESet x; EEval (if d then SOk else k)].
Proof.
  intros j k d b H. destruct H as [j x k t Hb Hk|j x k d t Hb Hk].
  - exists t, x. reflexivity.
  - exists (t ++ [ESet x; EEval k]), d. now rewrite <- app_assoc.
Qed.

Lemma iter_blocks_end : forall l (t : list (event F)), iter_blocks l t -> l <> [] ->
  exists x0 l0 t0 x, l = l0 ++ [x0] /\
    t = t0 ++ [ESet x; EEval (if sum_damped x0 then SOk else sum_status x0)] /\
    sum_status x0 <> SUnusable.
Proof.
  intros l t H Hl. destruct H as [|l t s b H Hb]; [easy|].
  assert (Hk : sum_status s <> SUnusable) by (inversion Hb; subst; auto).
  apply iter_block_end in Hb. destruct Hb as (b0 & x & ->).
  exists s, l, (t ++ b0), x. rewrite app_assoc. auto.
Qed.

(** *** Unusable calls *)
Definition unusable (e : event F) : bool :=
  match e with EEval SUnusable | EJac SUnusable => true | _ => false end.
Definition clean (t : list (event F)) : Prop := forall e, In e t -> unusable e = false.

Lemma clean_nil : clean [].
Proof. intros e []. Qed.
Lemma clean_app : forall a b, clean a -> clean b -> clean (a ++ b).
Proof. intros a b Ha Hb e H. apply in_app_or in H. destruct H; auto. Qed.
Lemma clean_fd : forall (mem : vec F) cols, Forall (fun c => snd c <> SUnusable) cols ->
  clean (fd_block mem cols).
Proof.
  intros mem cols H. unfold fd_block. induction H as [|c cols Hc H IH]; [apply clean_nil|].
  cbn [flat_map]. apply clean_app; [|exact IH].
  intros e [<-|[<-|[<-|[]]]]; try reflexivity. cbn. destruct (snd c); easy.
Qed.
End Count.

Section Unusable.
Context {F : Type} {NF : Num F} {IF : Inverter F}.
Context {St EI EU : Type} (M : Model F St EI EU).
Notation rootfinder := (rootfinder F).
Notation T := (traced M).

(** [t1] extends a trace by clean calls, or by clean calls and a final unusable
    one when [bad]. *)
Definition ext (bad : Prop) (t1 : list (event F)) : Prop :=
  (clean t1 /\ ~ bad) \/
  (bad /\ exists t2 e, t1 = t2 ++ [e] /\ clean t2 /\ unusable e = true).

Lemma clean_set_eval : forall x A (r : result A (model_error EI EU)),
  (forall e, r <> Err (UnusableValuesError e)) ->
  clean [@ESet F x; EEval (status_of r)].
Proof.
  intros x A r H e [<-|[<-|[]]]; [reflexivity|]. cbn.
  destruct r as [|[y|y]]; cbn; try reflexivity. elim (H y). reflexivity.
Qed.

Definition ext_unusable_eval : forall (x : vec F) (b : list (event F)) (P : Prop),
  P -> clean b -> ext P (b ++ [ESet x; EEval SUnusable]).
Proof.
  intros x b P HP Hb. right. split; [exact HP|].
  exists (b ++ [ESet x]), (EEval SUnusable). rewrite <- app_assoc. split; [reflexivity|].
  split; [|reflexivity]. apply clean_app; [exact Hb|]. intros e [<-|[]]; reflexivity.
Qed.

Lemma fd_columns_ext : forall conf n mem xref rref pert todo i s t p' r,
  finite_difference_columns T conf n mem xref rref pert todo i (s, t) = Ret (p', r) ->
  exists s' t1, p' = (s', t ++ t1) /\
    ext (exists e, r = Err (UnusableValuesError e)) t1.
Proof.
  intros conf n mem xref rref pert todo. induction todo as [|todo IH];
    intros i s t p' r H; cbn [finite_difference_columns] in H.
  - minv1 H. exists s, []. rewrite app_nil_r. split; [reflexivity|]. left.
    split; [apply clean_nil|]. intros (e & He). discriminate He.
  - minv1 H. minv1 H. minv1 H.
    apply traced_set_eval_inv in E1. destruct E1 as (s1 & _ & ->).
    assert (Hk : (exists e, b = Err (UnusableValuesError e) /\
        r = Err (UnusableValuesError e) /\ p' = (s1, t ++ [ESet x0; EEval SUnusable])) \/
      ((forall e, b <> Err (UnusableValuesError e)) /\
      (values <- get_residuals T (s1, t ++ [ESet x0; EEval (status_of b)]) ;;
       res <- evaluate_update_residuals conf values ;;
       diff <- vsub res rref ;;
       guard_shape (Nat.eqb (length (vdiv diff x)) n)
         ('(s2, rest) <-
            finite_difference_columns T conf n mem xref rref pert todo (S i)
              (set_memory T (s1, t ++ [ESet x0; EEval (status_of b)]) mem) ;;
          Ret (s2, match rest with
                   | Ok cols => Ok (vdiv diff x :: cols)
                   | Err e => Err e
                   end))) = Ret (p', r))).
    { destruct b as [u|[e|e]].
      - right. split; [discriminate|exact H].
      - right. split; [discriminate|exact H].
      - minv1 H. left. eauto. }
    clear H. destruct Hk as [(e & -> & -> & ->)|(Hnu & H)].
    + exists s1, [ESet x0; EEval SUnusable]. split; [reflexivity|].
      apply (ext_unusable_eval x0 []); [eauto|apply clean_nil].
    + minv1 H. minv1 H. minv1 H. unfold guard_shape in H. minv1 H. minv1 H. minv1 H.
      cbn [set_memory traced fst snd] in E5. apply IH in E5.
      destruct E5 as (s' & t1 & -> & He).
      exists s', ([ESet x0; EEval (status_of b); EMem mem] ++ t1). split.
      { rewrite <- !app_assoc. reflexivity. }
      assert (Hc : clean [ESet x0; EEval (status_of b); EMem mem]).
      { change [ESet x0; EEval (status_of b); EMem mem]
          with ([ESet x0; EEval (status_of b)] ++ [EMem mem]).
        apply clean_app; [now apply clean_set_eval|]. intros e [<-|[]]; reflexivity. }
      destruct He as [(He & Hn)|((e & ->) & t2 & e2 & -> & Hc2 & He2)].
      * left. split; [now apply clean_app|]. destruct b0.
        -- intros (e & Hx); discriminate Hx.
        -- intros (e1 & Hx). apply Hn. exists e1. injection Hx as ->. reflexivity.
      * right. split; [eauto|]. exists ([ESet x0; EEval (status_of b); EMem mem] ++ t2), e2.
        split; [now rewrite app_assoc|]. split; [now apply clean_app|exact He2].
Qed.

Lemma compute_jac_ext : forall rf s t rf' p' r,
  compute_jac T rf (s, t) = Ret (rf', p', r) ->
  exists s' t1, p' = (s', t ++ t1) /\
    ext (exists e, r = Err (InvalidJacobianError (UnusableValuesError e))) t1.
Proof.
  intros rf s t rf' p' r H. apply compute_jac_inv in H.
  destruct H as (j & r0 & -> & H & Hr).
  destruct (jacobian_provided T (s, t)).
  - unfold evaluate_jacobian_from_analytical_function in H. minv1 H. minv1 H.
    apply traced_jac_inv in E0. destruct E0 as (s' & _ & ->). cbn [snd] in H.
    exists s', [EJac (status_of b)].
    destruct b as [jv|[x0|x0]].
    + minv1 H. destruct (update_jacobian_with_exact_value _ _) as [j1 ok].
      minv1 H. split; [reflexivity|]. left. split.
      * intros e [<-|[]]; reflexivity.
      * destruct ok; intros (e & Hx); discriminate Hx.
    + minv1 H. split; [reflexivity|]. left. split.
      * intros e [<-|[]]; reflexivity.
      * intros (e & Hx); discriminate Hx.
    + minv1 H. split; [reflexivity|]. right. split; [eauto|].
      exists [], (EJac SUnusable). split; [reflexivity|]. split; [apply clean_nil|reflexivity].
  - unfold evaluate_jacobian_from_finite_difference in H. minv1 H. minv1 H.
    rename E0 into Ec. unfold compute_jacobian_from_finite_difference in Ec.
    minv1 Ec. minv1 Ec. minv1 Ec. minv1 Ec. apply fd_columns_ext in E2.
    destruct E2 as (s' & t1 & -> & He). exists s', t1.
    destruct b0 as [cols|e].
    + destruct (update_jacobian_with_exact_value _ _) as [j1 ok]. minv1 H.
      split; [reflexivity|]. destruct He as [(He & _)|((e & Hx) & _)]; [|discriminate Hx].
      left. split; [exact He|]. destruct ok; intros (e & Hx); discriminate Hx.
    + minv1 H. split; [reflexivity|].
      destruct He as [(He & Hn)|((e1 & Hx) & Hx2)].
      * left. split; [exact He|]. intros (e1 & Hx). apply Hn. exists e1.
        destruct e; [discriminate Hx|]. now injection Hx as ->.
      * injection Hx as ->. right. split; [eauto|exact Hx2].
Qed.

Lemma compute_step_ext : forall rf s t rf' p' r,
  compute_step T rf (s, t) = Ret (rf', p', r) ->
  exists s' t1, p' = (s', t ++ t1) /\
    ext (exists e, r = Err (InvalidJacobianError (UnusableValuesError e))) t1.
Proof.
  intros rf s t rf' p' r H. unfold compute_step in H.
  assert (Hw : forall (r1 : result unit (solver_internal_error EI EU)) (r2 : result (vec F) (solver_internal_error EI EU)) t1,
     (forall e, r1 = Err e <-> r2 = Err e) ->
     ext (exists e, r1 = Err (InvalidJacobianError (UnusableValuesError e))) t1 ->
     ext (exists e, r2 = Err (InvalidJacobianError (UnusableValuesError e))) t1).
  { intros r1 r2 t1 He [(H1 & H2)|((e & H1) & H2)].
    - left. split; [exact H1|]. intros (e & Hx). apply H2. exists e. now apply He.
    - right. split; [|exact H2]. exists e. now apply He. }
  assert (Hcj : forall rf1 p1 r1, compute_jac T rf (s, t) = Ret (rf1, p1, r1) -> p1 = p' ->
    (forall e, r1 = Err e <-> r = Err e) ->
    exists s' t1, p' = (s', t ++ t1) /\
    ext (exists e, r = Err (InvalidJacobianError (UnusableValuesError e))) t1).
  { intros rf1 p1 r1 Hc -> He. apply compute_jac_ext in Hc. destruct Hc as (s' & t1 & -> & Hx).
    exists s', t1. split; [reflexivity|]. eapply Hw; eauto. }
  assert (Hno : (forall e, r <> Err (InvalidJacobianError (UnusableValuesError e))) -> (s, t) = p' ->
    exists s' t1, p' = (s', t ++ t1) /\
    ext (exists e, r = Err (InvalidJacobianError (UnusableValuesError e))) t1).
  { intros Hn <-. exists s, []. rewrite app_nil_r. split; [reflexivity|]. left.
    split; [apply clean_nil|]. intros (e & Hx). elim (Hn e Hx). }
  destruct (sp_resolution_method (rf_parameters rf)) as [|m].
  - unfold compute_newton_raphson_step in H. minv1 H. minv1 H. destruct b.
    + minv1 H. minv1 H. eapply Hcj; [reflexivity|reflexivity|]. intros e; split; discriminate.
    + minv1 H. eapply Hcj; [reflexivity|reflexivity|]. intros e0; split; intros Hx; injection Hx as ->; reflexivity.
  - unfold compute_quasi_newton_step in H. minv1 H. rename E into Eq.
    unfold evaluate_jacobian_quasi_newton_step in Eq.
    destruct (jm_compute_at_next (rf_jacobian rf)).
    + minv1 Eq. minv1 Eq. minv1 Eq. destruct b.
      * minv1 H. minv1 H. eapply Hcj; [reflexivity|reflexivity|]. intros e; split; discriminate.
      * minv1 H. eapply Hcj; [reflexivity|reflexivity|]. intros e0; split; intros Hx; injection Hx as ->; reflexivity.
    + minv1 Eq. destruct b1.
      * minv1 Eq. minv1 Eq. minv1 H. minv1 H. apply Hno; [discriminate|reflexivity].
      * minv1 Eq. minv1 H. apply Hno; [discriminate|reflexivity].
Qed.

(** The errors of [solve] caused by an unusable call. *)
Definition unusable_error (r : result unit (solver_error EI EU)) : Prop :=
  (exists x, r = Err (ModelInitialEvaluationError x)) \/
  (exists e, r = Err (ModelEvaluationError (UnusableValuesError e))) \/
  (exists e, r = Err (JacobianError (InvalidJacobianError (UnusableValuesError e)))).

Lemma iteration_ext : forall rf s t rf' p' r,
  iteration T rf (s, t) = Ret (rf', p', r) ->
  exists s' t1, p' = (s', t ++ t1) /\
    ext (exists e, r = Err (ModelEvaluationError (UnusableValuesError e)) \/
                   r = Err (JacobianError (InvalidJacobianError (UnusableValuesError e)))) t1.
Proof.
  intros rf s t rf' p' r H. apply iteration_inv in H.
  destruct H as (rf1 & p1 & r1 & Hs & H). apply compute_step_ext in Hs.
  destruct Hs as (s1 & t1 & -> & He). destruct r1 as [g|e].
  - destruct He as [(He & _)|((e & Hx) & _)]; [|discriminate Hx].
    apply update_model_inv in H.
    destruct H as (e0 & p2 & r2 & _ & Hev & [(x & -> & -> & -> & ->)|(en & -> & Hnu & Hf)]).
    + apply traced_set_eval_inv in Hev. destruct Hev as (s2 & _ & ->).
      exists s2, (t1 ++ [ESet g; EEval SUnusable]). split; [now rewrite app_assoc|].
      apply ext_unusable_eval; [eauto|exact He].
    + apply traced_set_eval_inv in Hev. destruct Hev as (s2 & _ & ->).
      assert (Hc : clean [ESet g; EEval (status_of r2)]) by now apply clean_set_eval.
      apply finish_update_trace in Hf. destruct Hf as [->|(_ & s' & d & ->)].
      * exists s2, (t1 ++ [ESet g; EEval (status_of r2)]). split; [now rewrite app_assoc|].
        left. split; [now apply clean_app|]. intros (e & [Hx|Hx]); discriminate Hx.
      * exists s', ((t1 ++ [ESet g; EEval (status_of r2)]) ++ [ESet d; EEval SOk]).
        split; [now rewrite <- !app_assoc|].
        left. split; [apply clean_app; [now apply clean_app|]|].
        -- intros e [<-|[<-|[]]]; reflexivity.
        -- intros (e & [Hx|Hx]); discriminate Hx.
  - destruct H as (-> & -> & ->). exists s1, t1. split; [reflexivity|].
    destruct He as [(He & Hn)|((e1 & Hx) & H2)].
    + left. split; [exact He|]. intros (e1 & [Hx|Hx]); [discriminate Hx|].
      apply Hn. exists e1. now injection Hx as ->.
    + injection Hx as ->. right. split; [eauto|exact H2].
Qed.

(** In a whole run an unusable call can only be the last one, and it is always
    reported. *)
Lemma solve_ext : forall rf s t rf' p' r,
  solve T rf (s, t) = Ret (rf', p', r) ->
  exists s' t1, p' = (s', t ++ t1) /\ ext (unusable_error r) t1.
Proof.
  intros rf s t rf' p' r H. apply solve_inv in H.
  destruct H as (p1 & r1 & Hev & H). apply traced_set_eval_inv in Hev.
  destruct Hev as (s1 & _ & ->).
  destruct H as [(x & -> & -> & -> & ->)|(Hnu & H)].
  - exists s1, ([] ++ [ESet (rf_initial_guess rf); EEval SUnusable]). split; [reflexivity|].
    apply ext_unusable_eval; [left; eauto|apply clean_nil].
  - apply solve_from_inv in H. destruct H as (e & rf1 & r2 & _ & _ & Hit & ->).
    set (t0 := [ESet (rf_initial_guess rf); EEval (status_of r1)]) in *.
    assert (H0 : exists s' t1, (s1, t ++ t0) = (s', t ++ t1) /\ clean t1).
    { exists s1, t0. split; [reflexivity|]. now apply clean_set_eval. }
    apply (iterate_ind T (fun _ p _ => exists s' t1, p = (s', t ++ t1) /\ clean t1)) in Hit;
      [| |exact H0].
    + destruct r2 as [me|x].
      * destruct Hit as ((s' & t1 & -> & Hc) & _). exists s', t1. split; [reflexivity|].
        left. split; [exact Hc|]. unfold verdict.
        intros [(y & Hy)|[(y & Hy)|(y & Hy)]];
          destruct (ngtb _ _); try discriminate Hy; destruct (rf_valid_last rf'); discriminate Hy.
      * destruct Hit as (rf0 & p0 & me0 & (s' & t1 & -> & Hc) & _ & Hi).
        assert (Hno : forall y, x <> ModelInitialEvaluationError y).
        { intros y ->. apply iteration_inv in Hi. destruct Hi as (rf3 & s3 & r3 & _ & Hi).
          destruct r3.
          - apply update_model_inv in Hi.
            destruct Hi as (_ & _ & _ & _ & _ & [(z & _ & _ & _ & Hz)|(en & Hz & _)]); discriminate Hz.
          - destruct Hi as (_ & _ & Hz). discriminate Hz. }
        apply iteration_ext in Hi. destruct Hi as (s2 & t2 & -> & Hx).
        exists s2, (t1 ++ t2). split; [now rewrite app_assoc|].
        destruct Hx as [(Hx & Hn)|((y & Hy) & t3 & e3 & -> & Hc3 & He3)].
        -- left. split; [now apply clean_app|].
           intros [(y & Hy)|[(y & Hy)|(y & Hy)]].
           ++ injection Hy as ->. now elim (Hno y).
           ++ apply Hn. exists y. left. now injection Hy as ->.
           ++ apply Hn. exists y. right. now injection Hy as ->.
        -- right. split.
           ++ destruct Hy as [Hy|Hy]; injection Hy as ->; [right; left|right; right]; eauto.
           ++ exists (t1 ++ t3), e3. split; [now rewrite app_assoc|].
              split; [now apply clean_app|exact He3].
    + intros rfx p me rfy p2 en (s' & t1 & -> & Hc) _ Hi.
      apply iteration_ext in Hi. destruct Hi as (s2 & t2 & -> & Hx).
      exists s2, (t1 ++ t2). split; [now rewrite app_assoc|].
      destruct Hx as [(Hx & _)|((y & [Hy|Hy]) & _)]; [now apply clean_app|discriminate Hy|discriminate Hy].
Qed.

End Unusable.
