(** C84: the documented set-up, made of the defaults, from the guess to the result. *)
From Coq Require Import Reals Lia Lra.
From Flocq Require Import Core BinarySingleNaN.
From Verif Require Import Base Num Linalg Residuals Iteratives UserModel Jacobian Solver Trace F64 Tactics Samples Spec
  Fresh F64Facts FlowFacts VerdictFacts PropsVerdict PropsFlow PropsSim PropsLimits LuFacts SafeFacts PropsPanic.
Close Scope R_scope. Open Scope nat_scope.

(** The variables used with a model that gives its jacobian or not: README.md and
    the examples of the crate. *)
Definition default_variables (j : option (vec f64 -> mat f64)) (n : nat) : list (iterative f64) :=
  match j with
  | Some _ => map iterative_of_params (default_vec_iteratives n)
  | None => map iterative_of_params_fd (default_vec_iteratives_fd n)
  end.
Definition square_jacobian (j : option (vec f64 -> mat f64)) (n : nat) : Prop :=
  match j with
  | Some jac => forall x, length x = n -> length (jac x) = n /\ forall row, In row (jac x) -> length row = n
  | None => True
  end.

(** The states of the adapters: as many inputs and outputs as equations, the right
    members zero. *)
Definition kept (n : nat) (s : user_model f64) : Prop := um_sized n s /\ um_right s = repeat n0 n.
Lemma kept_model f j M n : adapter f j M -> (forall x, length x = n -> length (f x) = n) -> square_jacobian j n ->
  well_formed_model M n (kept n) (kept n).
Proof.
  intros A L J.
  assert (J' : match j with Some jac => forall x, length x = n -> is_square n (jac x) = true | None => True end).
  { destruct j as [jac|]; [|exact I]; intros x Lx; destruct (J x Lx) as [L1 L2]; unfold is_square.
    rewrite L1, Nat.eqb_refl; apply forallb_forall; intros r Hr; rewrite (L2 r Hr); apply Nat.eqb_refl. }
  clear J; destruct A as [| |jac|jac].
  1, 2: assert (W := adapter_well_formed n f L).
  3, 4: assert (W := adapter_jac_well_formed n f jac L J').
  all: destruct W as [W1 W2 W3 W4 W5 W6 W7 W8]; split; [auto|intros s [K _]; exact (W2 s K)|
    intros s x [K R] Lx; split; [exact (W3 s x K Lx)|exact R]|intros s [K _]; exact (W4 s K)| |
    intros s [K _]; exact (W6 s K)|intros s m [K R]; split; [exact (W7 s m K)|exact R]|].
  all: intros s [K R]; try (intros P; discriminate P).
  all: first [intros P; destruct (W8 s K P) as (s' & r & E & K' & Q); exists s', r; split; [exact E|split; [split; [exact K'|]|exact Q]];
              cbn [get_jacobian model_from_function_and_jacobian model_from_closure_and_jacobian] in E;
              unfold um_get_jacobian in E; minv1 E; injection E as <- _; exact R
             |destruct (W5 s K) as (s' & r & E & K' & Q); exists s', r; injection E as <- <-;
              split; [reflexivity|split; [split; [exact K'|exact R]|left; split; [exact K'|exact R]]]].
Qed.

Lemma sub_zero (y : f64) : nabs (nsub y n0) = nabs y.
Proof. destruct y as [[]|[]| |s m e B]; reflexivity. Qed.
Lemma zero_members n (y : vec f64) a : length y = n ->
  (stopping_residual (repeat Abs n) (mkResidualsValues y (repeat n0 n)) a <-> exists b, In b y /\ a = nabs b).
Proof.
  intros L; split.
  - intros (i & m & x & z & (E1 & E2 & E3) & ->); cbn [rv_left rv_right] in *.
    apply nth_error_In in E1, E3; apply repeat_spec in E1, E3; subst m z; cbn [residual].
    exists x; split; [eapply nth_error_In; exact E2|apply sub_zero].
  - intros (b & Hb & ->); apply In_nth_error in Hb; destruct Hb as [i Hi]; exists i, Abs, b, n0.
    assert (i < n) by (rewrite <- L; apply nth_error_Some; congruence).
    repeat split; cbn [rv_left rv_right residual]; try exact Hi; try (symmetry; apply sub_zero);
      apply nth_error_repeat; assumption.
Qed.

(** The tolerance of [default_with_guess] is the double nearest to 1e-6, which is
    a little below. *)
Lemma default_tolerance : isfin (ndec 1 1000000 : f64) = true /\
  (/ 1000001 < B2R (ndec 1 1000000 : f64) < / 1000000)%R.
Proof.
  assert (E : B2SF (ndec 1 1000000 : f64) = SpecFloat.S754_finite false 4722366482869645 (-72)) by (vm_compute; reflexivity).
  split; [rewrite <- is_finite_SF_B2SF, E; reflexivity|].
  rewrite <- SF2R_B2SF, E; unfold SF2R, F2R; cbn [Fnum Fexp cond_Zopp].
  change (bpow radix2 (-72)) with (/ 4722366482869645213696)%R.
  lra.
Qed.
Lemma within_default (a : f64) : nleb (nabs a) (ndec 1 1000000) = true ->
  isfin a = true /\ (Rabs (B2R a) < / 1000000)%R.
Proof.
  intros H; apply leb_true_inv in H; destruct H as (N & _ & H); destruct default_tolerance as (T & _ & U).
  rewrite key_abs, (key_fin _ T) in H; rewrite abs_nan in N.
  destruct a as [s|s| |s m e B]; try discriminate N.
  - split; [reflexivity|]; cbn [key B2R] in *; rewrite Rabs_R0; lra.
  - exfalso; assert (P : (/ 1000000 < bpow radix2 1024)%R) by
      (apply Rlt_trans with 1%R; [lra|apply (bpow_lt radix2 0 1024); lia]).
    destruct s; cbn [key] in H; rewrite ?Rabs_Ropp, Rabs_pos_eq in H by apply bpow_ge_0; lra.
  - split; [reflexivity|]; cbn [key] in H; lra.
Qed.
Lemma beyond_default (a : f64) : nltb (ndec 1 1000000) (nabs a) = true ->
  isfin a = true -> (/ 1000001 < Rabs (B2R a))%R.
Proof.
  intros H Fa; apply ltb_true_inv in H; destruct H as (_ & _ & H); destruct default_tolerance as (T & U & _).
  rewrite key_abs, (key_fin _ T), (key_fin a Fa) in H; lra.
Qed.

(** C84: with the defaults, for any function between vectors of the size of the
    guess (any adapter, any method, damped or not), the solver is built, the
    resolution does not panic and takes at most 50 iterations, and its result
    means what it says: a point where all values are below 1e-6 unless one is
    NaN, or fifty iterations that end where some value is not below. *)
Theorem C84_defaults f j M n guess m damped : adapter f j M ->
  (forall x, length x = n -> length (f x) = n) -> square_jacobian j n -> length guess = n ->
  exists conf rf rf' s' r,
    residuals_config_new (fst (convert_into_vecs (default_vec_residuals n)))
      (snd (convert_into_vecs (default_vec_residuals n))) = Ret conf /\
    default_with_guess guess (default_variables j n) conf m damped = Ret rf /\
    solve M rf (user_model_new n) = Ret (rf', s', r) /\ rf_iter rf' <= 50 /\
    let x := get_iteratives M s' in
    length x = n /\
    ((r = Ok tt /\ get_residuals M s' = Ret (mkResidualsValues (f x) (repeat n0 n)) /\
        ((exists a, In a (f x) /\ isnan a = true) \/
         (forall a, In a (f x) -> isfin a = true /\ (Rabs (B2R a) < / 1000000)%R))) \/
     (r = Err NonConvergenceError /\ rf_iter rf' = 50 /\
        exists a, In a (f x) /\ (isfin a = true -> (/ 1000001 < Rabs (B2R a))%R)) \/
     r = Err (JacobianError InvalidJacobianInverseError)).
Proof.
  intros A L J Lg.
  set (conf := mkResidualsConfig (repeat Abs n) (repeat Abs n)).
  assert (C : residuals_config_new (fst (convert_into_vecs (default_vec_residuals n)))
      (snd (convert_into_vecs (default_vec_residuals n))) = Ret conf).
  { unfold convert_into_vecs, default_vec_residuals; cbn [fst snd]; rewrite !map_repeat; unfold residuals_config_new.
    rewrite Nat.eqb_refl; reflexivity. }
  assert (Li : length (default_variables j n) = n).
  { destruct j; cbn [default_variables]; rewrite map_length; apply repeat_length. }
  set (p := mkSolverParameters (length guess) (ndec 1 1000000 : f64) 50 m damped).
  assert (N : exists rf, rootfinder_new p guess (default_variables j n) conf = Ret rf).
  { destruct (C16_new _ _ p guess (default_variables j n) conf) as [N _].
    destruct N as (rf & N & _); [|exists rf; exact N].
    cbn [stopping_criterias conf sp_problem_size p]; rewrite repeat_length; repeat split; congruence. }
  destruct N as [rf N]; exists conf, rf.
  assert (W := kept_model f j M n A L J).
  assert (U : forall s, exists s', evaluate M s = Ret (s', Ok tt)) by (intros s; destruct A; eexists; reflexivity).
  destruct (new_ready M n (kept n) (kept n) p guess (default_variables j n) conf rf N Lg eq_refl) as [Rd _].
  { intros _ s _; apply U. }
  { destruct j as [jac|]; [left; intros s _; inversion A; reflexivity|right].
    intros it x Hi; cbn [default_variables] in Hi; apply in_map_iff in Hi; destruct Hi as (q & <- & _); eexists; reflexivity. }
  destruct (C15_no_panic_ready (@lu_inverse_length f64 _) M n (kept n) (kept n) W rf (user_model_new n) Rd) as
    (rf' & s' & r & S & K & _).
  { split; [apply um_new_sized|reflexivity]. }
  assert (Fr : fresh rf) by (exists p, guess, (default_variables j n), conf, rf; auto).
  exists rf', s', r; split; [exact C|split; [exact N|split; [exact S|]]].
  assert (Cf : rf_parameters rf = p /\ rf_residuals_config rf = conf /\ rf_iter rf = 0).
  { destruct (C16_new _ _ p guess (default_variables j n) conf) as [N' _].
    destruct N' as (rf2 & N2 & P1 & _ & _ & P2 & _ & P3 & _);
      [cbn [stopping_criterias conf sp_problem_size p]; rewrite repeat_length; repeat split; congruence|].
    rewrite N in N2; injection N2 as <-; auto. }
  destruct Cf as (Cp & Cc & Ci).
  assert (B := proj2 (C06_iterations_bounded _ _ _ rf rf' Fr ltac:(eapply history_solve; [apply history_none|exact S]))).
  rewrite Cp in B; split; [exact B|].
  assert (G : get_iteratives M s' = um_inputs s') by (destruct A; reflexivity).
  destruct K as ((_ & Lx & _ & _) & Rz); rewrite G; split; [exact Lx|].
  assert (Res : forall v, r = Ok tt \/ r = Err NonConvergenceError \/ r = Err FinalEvaluationError ->
    get_residuals M s' = Ret v -> v = mkResidualsValues (f (um_inputs s')) (repeat n0 n)).
  { intros v V E.
    assert (Ev := C08_final_state_is_an_evaluation _ _ _ _ _ _ _ _ _ _ _ _ S V).
    destruct Ev as (s0 & x & r0 & Ev & _).
    assert (um_left s' = f (um_inputs s')) by (destruct A; injection Ev as <- _; reflexivity).
    assert (um_get_residuals s' = Ret v) by (destruct A; exact E).
    unfold um_get_residuals, residuals_values_new in *; destruct (Nat.eqb _ _); [|discriminate].
    rewrite <- Rz, <- H; congruence. }
  destruct (C47_only_function_and_guess _ _ _ f j M A n [] [] _ _ rf eq_refl eq_refl) as [_ V].
  destruct (V rf' s' r Fr S) as [->|[->| ->]]; [left|right; left|right; right; reflexivity].
  - destruct (C01_success_within_tolerance _ _ _ _ M rf _ rf' s' S) as (v & Ev & _ & H).
    { rewrite Cp; vm_compute; reflexivity. }
    assert (Q := Res v ltac:(auto) Ev); subst v.
    split; [reflexivity|split; [exact Ev|]].
    rewrite Cc, Cp in H; cbn [stopping_criterias conf sp_tolerance p] in H.
    assert (Z := zero_members n (f (um_inputs s'))).
    destruct (existsb isnan (f (um_inputs s'))) eqn:En; [left; apply existsb_exists in En; exact En|right].
    intros a Ha; apply within_default, H.
    + intros b Hb; apply Z in Hb; [|apply L, Lx]; destruct Hb as (c & Hc & ->).
      change (isnan (nabs c) = false); rewrite abs_nan; apply Bool.not_true_iff_false; intros T.
      rewrite <- Bool.not_true_iff_false, existsb_exists in En; apply En; exists c; auto.
    + apply Z; [apply L, Lx|exists a; auto].
  - destruct (C05_nonconvergence _ _ _ _ M rf _ rf' s' S) as (It & v & Ev & H).
    assert (Q := Res v ltac:(auto) Ev); subst v.
    rewrite Ci, Cp in It; split; [reflexivity|split; [exact It|]].
    rewrite Cc, Cp in H; cbn [stopping_criterias conf sp_tolerance p] in H.
    destruct H as [(a & Ha & H)|H]; [|vm_compute in H; discriminate H].
    apply zero_members in Ha; [|apply L, Lx]; destruct Ha as (b & Hb & ->).
    exists b; split; [exact Hb|apply beyond_default, H].
Qed.
Print Assumptions C84_defaults.

(** x^2 - 2 from 1: the premises hold and the run succeeds. *)
Example C84_case :
  adapter sq2 None (model_from_function sq2) /\ (forall x, length x = 1 -> length (sq2 x) = 1) /\
  check_run (rf <- default_with_guess [Fz 1] (default_variables None 1) (abs_conf 1) NewtonRaphson false ;;
             solve (model_from_function sq2) rf (user_model_new 1))
    (fun rf s r => is_ok r && Nat.ltb 3 (rf_iter rf)) = true /\
  check_run (rf <- default_with_guess [Fz 1] (default_variables None 1) (abs_conf 1) NewtonRaphson false ;;
             solve (model_from_function (map (fun _ => Fz 1))) rf (user_model_new 1))
    (fun rf s r => match r with Err (JacobianError InvalidJacobianInverseError) => true | _ => false end) = true.
Proof.
  split; [constructor|split; [intros x H; unfold sq2; rewrite map_length; exact H|split; vm_compute; reflexivity]].
Qed.
