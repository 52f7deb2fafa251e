(** C102: changing the sign of equations, or of zeros, changes nothing in a
    resolution on doubles. *)
From Coq Require Import Reals Lra Lia ZArith List Bool.
From Flocq Require Import Core BinarySingleNaN.
From Verif Require Import Base Num F64 Linalg Residuals Iteratives UserModel Jacobian Solver
  F64Facts F64Arith SignFacts ExactFacts PropsNorm PropsFD PropsStep Samples FloatRun DampedFloat PropsTextbook.
Import ListNotations.
Open Scope R_scope.

(** The same numbers, zeros of either sign. *)
Definition same (n : nat) (x x' : vec f64) : Prop := srow false (repeat false n) x x'.

(** ** The limits *)
Lemma sg_ltb x x' y y' : sg false x x' -> sg false y y' -> nltb x' y' = nltb x y.
Proof.
  intros (N1 & K1) (N2 & K2); cbn [sgn] in K1, K2.
  destruct (isnan x) eqn:Nx; [rewrite !ltb_nan by auto; reflexivity|].
  destruct (isnan y) eqn:Ny; [rewrite !ltb_nan by auto; reflexivity|].
  destruct (nltb x y) eqn:E.
  - apply ltb_key; auto; rewrite K1, K2; apply ltb_key; auto.
  - apply ltb_key_false; auto; rewrite K1, K2; apply ltb_key_false; auto.
Qed.
Lemma sg_max x x' y y' : sg false x x' -> sg false y y' -> sg false (nmax x y) (nmax x' y').
Proof.
  intros S1 S2; unfold nmax; rewrite !nisnan_f64, (proj1 S1), (proj1 S2), (sg_ltb _ _ _ _ S1 S2).
  destruct (isnan x), (isnan y), (nltb x y); assumption.
Qed.
Lemma sg_min x x' y y' : sg false x x' -> sg false y y' -> sg false (nmin x y) (nmin x' y').
Proof.
  intros S1 S2; unfold nmin; rewrite !nisnan_f64, (proj1 S1), (proj1 S2), (sg_ltb _ _ _ _ S2 S1).
  destruct (isnan x), (isnan y), (nltb y x); assumption.
Qed.
Lemma sg_signum c s s' : sg c s s' -> iszero s = false -> sg c (nsignum s) (nsignum s').
Proof.
  intros S Z; destruct (sg_cases _ _ _ S) as [-> | [Q _]]; [|congruence].
  apply sg_of; destruct c, s as [|[]| |[]]; try discriminate; reflexivity.
Qed.

(** The limits accepted by the constructors. *)
Definition positive_limits (p : iterative_params f64) : Prop :=
  nleb (max_step_abs p) n0 = false /\ nleb (max_step_rel p) n0 = false.

Lemma no_step (p : iterative_params f64) a : positive_limits p ->
  forall s : f64, iszero s = true ->
  iszero (nmin (nmin (max_step_abs p) (nmul (max_step_rel p) (nabs a))) (nabs s)) = true.
Proof.
  intros (H1 & H2) s Hs.
  assert (Es : nabs s = n0) by (destruct s; try discriminate; reflexivity); rewrite Es.
  set (l := nmin (max_step_abs p) _); assert (HL : isnan l = true \/ 0 <= key l).
  { unfold l, nmin; rewrite !nisnan_f64.
    assert (P1 : isnan (max_step_abs p) = false -> 0 <= key (max_step_abs p)).
    { intros N; apply leb_key_false in H1; [|exact N|reflexivity]; change (key n0) with 0 in H1; lra. }
    assert (P2 : isnan (nmul (max_step_rel p) (nabs a)) = false -> 0 <= key (nmul (max_step_rel p) (nabs a))).
    { intros N; destruct (isnan (max_step_rel p)) eqn:NR.
      - destruct (max_step_rel p); try discriminate.
      - apply leb_key_false in H2; [|exact NR|reflexivity]; change (key n0) with 0 in H2.
        apply LimitFacts.mul_nonneg; [exact N|lra|apply abs_ge_0]. }
    destruct (isnan (max_step_abs p)) eqn:NA; [destruct (isnan (nmul (max_step_rel p) (nabs a))) eqn:NM; auto|].
    destruct (isnan (nmul (max_step_rel p) (nabs a))) eqn:NM; [auto|]; destruct (nltb _ (max_step_abs p)); auto. }
  clearbody l.
  unfold nmin; rewrite !nisnan_f64; destruct (isnan l) eqn:NL; [reflexivity|].
  destruct HL as [HL|HL]; [discriminate|].
  cbn [is_nan]; change (isnan n0) with false; cbv iota.
  destruct (nltb n0 l) eqn:E; [reflexivity|].
  apply ltb_key_false in E; [|reflexivity|exact NL]; change (key n0) with 0 in E.
  apply key_zero; [exact NL|lra].
Qed.

Lemma moved_same p a a' s s' : positive_limits p -> sg false a a' -> sg false s s' ->
  sg false (moved p a s) (moved p a' s').
Proof.
  intros PL SA SS; unfold moved; rewrite (sg_abs _ _ _ SA), (sg_abs _ _ _ SS).
  set (m := nmin _ (nabs s)).
  assert (ST : sg false (nmul m (nsignum s)) (nmul m (nsignum s'))).
  { destruct (iszero s) eqn:Z.
    - assert (Z' : iszero m = true) by (apply no_step; assumption).
      destruct (sg_cases _ _ _ SS) as [-> | [_ Z2]]; [apply sg_refl|].
      apply sg_zeros; destruct m as [sm| | |]; try discriminate;
        [destruct s as [[]| | |]|destruct s' as [[]| | |]]; try discriminate; destruct sm; reflexivity.
    - apply (sg_mul false false); [apply sg_refl|apply sg_signum; assumption]. }
  apply sg_min; [|apply sg_refl]; apply sg_max; [|apply sg_refl]; apply sg_add; assumption.
Qed.

Lemma same_nth n x x' i : same n x x' -> (i < n)%nat -> sg false (nth i x n0) (nth i x' n0).
Proof.
  intros H Hi; assert (Q := srow_nth _ _ _ _ i H ltac:(rewrite repeat_length; exact Hi)).
  rewrite nth_repeat in Q; exact Q.
Qed.
Lemma same_length n x x' : same n x x' -> length x = n /\ length x' = n.
Proof. intros H; apply srow_length in H; rewrite repeat_length in H; exact H. Qed.
Lemma same_map_seq n (g g' : nat -> f64) : (forall i, (i < n)%nat -> sg false (g i) (g' i)) ->
  same n (map g (seq 0 n)) (map g' (seq 0 n)).
Proof.
  intros H; unfold same; assert (Q := srow_map_seq false g g' (repeat false n) 0); rewrite repeat_length in Q.
  apply Q; intros j Hj; rewrite nth_repeat; apply H, Hj.
Qed.

(** ** The algorithm *)
Section Signs.
Context (f f' : vec f64 -> vec f64) (slopes slopes' : vec f64 -> mat f64 * vec f64) (n : nat) (e : list bool)
  (ps : list (iterative_params f64)) (damped frozen : bool) (tol : f64)
  (Le : length e = n) (LP : length ps = n) (HP : forall p, In p ps -> positive_limits p)
  (HF : forall x x', same n x x' -> srow false e (f x) (f' x'))
  (HS : forall x x', same n x x' -> smat e (repeat false n) (fst (slopes x)) (fst (slopes' x')) /\
     same n (snd (slopes x)) (snd (slopes' x'))).

Lemma worst_same x x' : same n x x' -> worst f' x' = worst f x.
Proof using HF. intros H; unfold worst; rewrite (srow_abs _ _ _ _ (HF x x' H)); reflexivity. Qed.

Lemma proposal_same H H' z z' : smat (repeat false n) e H H' -> same n z z' ->
  same n (proposal f ps H z) (proposal f' ps H' z').
Proof using LP HP HF.
  intros HH HZ; unfold proposal; rewrite LP; apply same_map_seq; intros i Hi.
  apply moved_same; [apply HP, nth_In; rewrite LP; exact Hi|apply same_nth with n; assumption|].
  apply (sg_dot false e); [|apply HF, HZ]; apply srow_neg.
  assert (Q := smat_nth _ _ _ _ i HH ltac:(rewrite repeat_length; exact Hi)); rewrite nth_repeat in Q; exact Q.
Qed.

Lemma landing_same z z' y y' : same n z z' -> same n y y' -> same n (landing f damped z y) (landing f' damped z' y').
Proof using HF.
  intros HZ HY; unfold landing; rewrite (worst_same z z' HZ), (worst_same y y' HY).
  case (damped && ngtb (worst f y) (worst f z))%bool; [|exact HY].
  clear HF; unfold same in *; revert z z' y y' HZ HY; generalize (repeat false n).
  induction l as [|c d IH]; intros [|a z] [|a' z'] [|b y] [|b' y'] HZ HY; try contradiction; [exact I|].
  cbn [map2]; split; [|apply IH; [apply HZ|apply HY]]; unfold damped1.
  apply sg_add.
  - replace (xorb false c) with (xorb (xorb false c) false) by (destruct c; reflexivity).
    apply sg_mul; [apply HZ|apply sg_refl].
  - replace (xorb false c) with (xorb (xorb false c) false) by (destruct c; reflexivity).
    apply sg_mul; [apply HY|apply sg_refl].
Qed.

Definition kept_same (k k' : option (mat f64)) : Prop :=
  match k, k' with
  | Some H, Some H' => smat (repeat false n) e H H'
  | None, None => True
  | _, _ => False
  end.

Lemma textbook_same : forall budget k k' x x', kept_same k k' -> same n x x' ->
  let r := textbook f slopes ps damped frozen tol budget k x in
  let r' := textbook f' slopes' ps damped frozen tol budget k' x' in
  fst r' = fst r /\ same n (snd r) (snd r').
Proof using Le LP HP HF HS.
  assert (KS : forall H H', smat (repeat false n) e H H' ->
    kept_same (if frozen then Some H else None) (if frozen then Some H' else None)).
  { intros H H' HH; case frozen; [exact HH|exact I]. }
  induction budget as [|budget IH]; intros k k' x x' HK HX; cbn [textbook]; rewrite (worst_same x x' HX).
  - destruct (ngtb (worst f x) tol); split; try reflexivity; exact HX.
  - destruct (ngtb (worst f x) tol); [|split; [reflexivity|exact HX]].
    destruct k as [H|], k' as [H'|]; try contradiction.
    + assert (Q := IH _ _ _ _ (KS H H' HK) (landing_same x x' _ _ HX (proposal_same H H' x x' HK HX))).
      destruct (textbook f _ _ _ _ _ _ _ _) as [[r m] y], (textbook f' _ _ _ _ _ _ _ _) as [[r' m'] y'].
      cbn [fst snd] in *; destruct Q as (Q1 & Q2); split; [congruence|exact Q2].
    + destruct (HS x x' HX) as (S1 & S2).
      assert (QI := inverse_signs e (repeat false n) _ _ ltac:(rewrite repeat_length; congruence) S1).
      destruct (lu_inverse (fst (slopes x))) as [H|], (lu_inverse (fst (slopes' x'))) as [H'|]; try contradiction.
      * assert (Q := IH _ _ _ _ (KS H H' QI) (landing_same _ _ _ _ S2 (proposal_same H H' _ _ QI S2))).
        destruct (textbook f _ _ _ _ _ _ _ _) as [[r m] y], (textbook f' _ _ _ _ _ _ _ _) as [[r' m'] y'].
        cbn [fst snd] in *; destruct Q as (Q1 & Q2); split; [congruence|exact Q2].
      * split; [reflexivity|exact S2].
Qed.
End Signs.

(** ** The statements *)

(** Two resolutions which end alike: same verdict, same number of iterations,
    same numbers. *)
Definition end_alike (n : nat)
  (o o' : outcome (rootfinder f64 * user_model f64 * result unit (solver_error Empty_set Empty_set))) : Prop :=
  exists rf s rf' s' r, o = Ret (rf, s, r) /\ o' = Ret (rf', s', r) /\ rf_iter rf' = rf_iter rf /\
    same n (um_inputs s) (um_inputs s').

Lemma alike_of n f f' (t t' : ending * nat * vec f64) o o' : as_textbook f t o -> as_textbook f' t' o' ->
  fst t' = fst t /\ same n (snd t) (snd t') -> end_alike n o o'.
Proof.
  intros (rf & s & E & I & X & _) (rf' & s' & E' & I' & X' & _) (Q1 & Q2).
  exists rf, s, rf', s', (verdict_of (fst (fst t))); rewrite E, E', I, I', X, X', Q1; auto.
Qed.
Lemma same_refl n (x : vec f64) : length x = n -> same n x x.
Proof. intros <-; unfold same; induction x as [|a x IH]; [exact I|]; split; [apply sg_refl|exact IH]. Qed.
Lemma same_shift d : forall n x x' j, same n x x' -> same n (shift x j d) (shift x' j d).
Proof.
  unfold same; induction n as [|n IH]; intros [|a x] [|a' x'] [|j] H; try contradiction; try exact I.
  - split; [apply sg_add; [apply H|apply sg_refl]|apply H].
  - split; [apply H|]; apply (IH x x' j), H.
Qed.
Lemma same_sizes n (f f' : vec f64 -> vec f64) e : length e = n ->
  (forall x x', same n x x' -> srow false e (f x) (f' x')) ->
  forall x, length x = n -> length (f x) = n /\ length (f' x) = n.
Proof.
  intros Le HF x Lx; rewrite <- Le; eapply srow_length, HF, same_refl, Lx.
Qed.

Theorem C102_given_jacobian : forall func func' jac jac' n e ps damped frozen tol maxit x0 x0' rf rf',
  length e = n -> (forall p, In p ps -> positive_limits p) ->
  (forall x x', same n x x' -> srow false e (func x) (func' x')) ->
  (forall x x', same n x x' -> smat e (repeat false n) (jac x) (jac' x')) ->
  same n x0 x0' ->
  let p := mkSolverParameters n tol maxit (if frozen : bool then QuasiNewton StationaryNewton else NewtonRaphson) damped in
  rootfinder_new p x0 (map iterative_of_params ps) (all_abs n) = Ret rf ->
  rootfinder_new p x0' (map iterative_of_params ps) (all_abs n) = Ret rf' ->
  end_alike n (solve (model_from_function_and_jacobian func jac) rf (user_model_new n))
    (solve (model_from_function_and_jacobian func' jac') rf' (user_model_new n)).
Proof.
  intros func func' jac jac' n e ps damped frozen tol maxit x0 x0' rf rf' Le HP HF HJ H0 p N1 N2.
  assert (LP : length ps = n) by (destruct (new_solver _ _ _ _ _ N1) as (_ & E & _); rewrite map_length in E; exact E).
  assert (SZ := same_sizes n func func' e Le HF).
  assert (SQ : forall x, length x = n -> squaref n (jac x) /\ squaref n (jac' x)).
  { intros x Lx; assert (Q := HJ x x (same_refl n x Lx)); destruct (smat_length _ _ _ _ Q) as (L1 & L2).
    assert (QR : forall i, (i < n)%nat -> length (nth i (jac x) []) = n /\ length (nth i (jac' x) []) = n).
    { intros i Hi; assert (W := srow_length _ _ _ _ (smat_nth _ _ _ _ i Q ltac:(rewrite Le; exact Hi))).
      rewrite repeat_length in W; exact W. }
    split; (split; [congruence|]); intros r Hr; apply (In_nth _ _ []) in Hr; destruct Hr as (i & Hi & <-); apply QR; congruence. }
  eapply alike_of.
  - apply C101_given_jacobian with (2 := N1); intros x Lx; split; [apply SZ, Lx|apply SQ, Lx].
  - apply C101_given_jacobian with (2 := N2); intros x Lx; split; [apply SZ, Lx|apply SQ, Lx].
  - apply (textbook_same func func' (given_slopes jac) (given_slopes jac') n e ps damped frozen tol Le LP HP HF);
      [|exact I|exact H0].
    intros x x' HX; split; [apply HJ, HX|exact HX].
Qed.
Print Assumptions C102_given_jacobian.

Theorem C102_difference_quotients : forall func func' n e ps damped frozen tol maxit x0 x0' rf rf', (1 <= n)%nat ->
  length e = n -> (forall p, In p ps -> positive_limits (fd_params p)) ->
  (forall x x', same n x x' -> srow false e (func x) (func' x')) ->
  same n x0 x0' ->
  let p := mkSolverParameters n tol maxit (if frozen : bool then QuasiNewton StationaryNewton else NewtonRaphson) damped in
  rootfinder_new p x0 (map iterative_of_params_fd ps) (all_abs n) = Ret rf ->
  rootfinder_new p x0' (map iterative_of_params_fd ps) (all_abs n) = Ret rf' ->
  end_alike n (solve (model_from_function func) rf (user_model_new n))
    (solve (model_from_function func') rf' (user_model_new n)).
Proof.
  intros func func' n e ps damped frozen tol maxit x0 x0' rf rf' Pn Le HP HF H0 p N1 N2.
  assert (LP : length ps = n) by (destruct (new_solver _ _ _ _ _ N1) as (_ & E & _); rewrite map_length in E; exact E).
  assert (SZ := same_sizes n func func' e Le HF).
  eapply alike_of.
  - apply C101_difference_quotients with (3 := N1); [exact Pn|]; intros x Lx; apply SZ, Lx.
  - apply C101_difference_quotients with (3 := N2); [exact Pn|]; intros x Lx; apply SZ, Lx.
  - apply (textbook_same func func' (quotient_slopes func ps) (quotient_slopes func' ps) n e (map fd_params ps)
      damped frozen tol Le); [rewrite map_length; exact LP| |exact HF| |exact I|exact H0].
    + intros q Hq; apply in_map_iff in Hq; destruct Hq as (w & <- & Hw); apply HP, Hw.
    + intros x x' HX.
      assert (EI : forall j, (j < n)%nat -> increment (nth j ps default_iterative_params_fd) (nth j x' n0)
        = increment (nth j ps default_iterative_params_fd) (nth j x n0)).
      { intros j Hj; unfold increment; rewrite (sg_abs _ _ _ (same_nth n x x' j HX Hj)); reflexivity. }
      assert (HB : forall j, (j < n)%nat -> same n (bumped ps x j) (bumped ps x' j)).
      { intros j Hj; unfold bumped; rewrite EI by exact Hj; apply same_shift, HX. }
      split; [|apply (HB (length ps - 1)%nat); lia].
      unfold quotient_slopes; cbn [fst]; rewrite LP.
      match goal with |- smat _ _ (map ?g _) (map ?g' _) => assert (Q := smat_map_seq (repeat false n) g g' e 0) end.
      rewrite Le in Q; apply Q; clear Q; intros i Hi; cbn [Nat.add].
      assert (R := srow_map_seq (nth i e false)
        (fun j => ndiv (nsub (nth i (func (bumped ps x j)) n0) (nth i (func x) n0))
           (increment (nth j ps default_iterative_params_fd) (nth j x n0)))
        (fun j => ndiv (nsub (nth i (func' (bumped ps x' j)) n0) (nth i (func' x') n0))
           (increment (nth j ps default_iterative_params_fd) (nth j x' n0))) (repeat false n) 0).
      rewrite repeat_length in R; apply R; intros j Hj; cbn [Nat.add]; rewrite nth_repeat, xorb_false_r, EI by exact Hj.
      apply sg_div_same, sg_sub; [assert (W := srow_nth _ _ _ _ i (HF _ _ (HB j Hj)) ltac:(lia))
        |assert (W := srow_nth _ _ _ _ i (HF _ _ HX) ltac:(lia))]; rewrite xorb_false_l in W; exact W.
Qed.
Print Assumptions C102_difference_quotients.

(** The equations of [e] with the opposite sign, for functions of the numbers:
    zeros of either sign give the same values. *)
Definition flipped (e : list bool) (f : vec f64 -> vec f64) (x : vec f64) : vec f64 := map2 flip e (f x).
Definition flipped_rows (e : list bool) (jac : vec f64 -> mat f64) (x : vec f64) : mat f64 :=
  map2 (fun s r => map (flip s) r) e (jac x).

Lemma flip_values : forall e v v', same (length e) v v' -> srow false e v (map2 flip e v').
Proof.
  unfold same; induction e as [|s e IH]; intros [|a v] [|a' v'] H; try contradiction; [exact I|].
  cbn [map2 srow]; split; [|apply IH, H]; destruct H as ((N & K) & _), s; cbn [flip xorb sgn] in *.
  - split; [rewrite opp_nan; exact N|rewrite key_opp, K; reflexivity].
  - split; assumption.
Qed.
Lemma flip_rows d : forall e A A', smat (repeat false (length e)) d A A' ->
  smat e d A (map2 (fun s r => map (flip s) r) e A').
Proof.
  induction e as [|s e IH]; intros [|r A] [|r' A'] H; try contradiction; [exact I|].
  cbn [map2 smat]; split; [|apply IH, H]; destruct H as (H & _); clear - H; revert r r' H.
  induction d as [|c d IH]; intros [|a r] [|a' r'] H; try contradiction; [exact I|].
  cbn [map]; split; [|apply IH, H]; destruct H as ((N & K) & _), s, c; cbn [flip xorb sgn] in *;
    (split; [rewrite ?opp_nan; exact N|rewrite ?key_opp, K; cbn [sgn xorb]; try lra]).
Qed.

Theorem C102_flipped : forall func jac n e ps damped frozen tol maxit x0 x0' rf rf',
  length e = n -> (forall p, In p ps -> positive_limits p) ->
  (forall x x', same n x x' -> same n (func x) (func x') /\ smat (repeat false n) (repeat false n) (jac x) (jac x')) ->
  same n x0 x0' ->
  let p := mkSolverParameters n tol maxit (if frozen : bool then QuasiNewton StationaryNewton else NewtonRaphson) damped in
  rootfinder_new p x0 (map iterative_of_params ps) (all_abs n) = Ret rf ->
  rootfinder_new p x0' (map iterative_of_params ps) (all_abs n) = Ret rf' ->
  end_alike n (solve (model_from_function_and_jacobian func jac) rf (user_model_new n))
    (solve (model_from_function_and_jacobian (flipped e func) (flipped_rows e jac)) rf' (user_model_new n)).
Proof.
  intros func jac n e ps damped frozen tol maxit x0 x0' rf rf' Le HP HF H0 p N1 N2.
  apply (C102_given_jacobian func _ jac _ n e ps damped frozen tol maxit x0 x0'); auto.
  - intros x x' HX; apply flip_values; rewrite Le; apply HF, HX.
  - intros x x' HX; apply flip_rows; rewrite Le; apply HF, HX.
Qed.
Print Assumptions C102_flipped.

Theorem C102_flipped_differences : forall func n e ps damped frozen tol maxit x0 x0' rf rf', (1 <= n)%nat ->
  length e = n -> (forall p, In p ps -> positive_limits (fd_params p)) ->
  (forall x x', same n x x' -> same n (func x) (func x')) -> same n x0 x0' ->
  let p := mkSolverParameters n tol maxit (if frozen : bool then QuasiNewton StationaryNewton else NewtonRaphson) damped in
  rootfinder_new p x0 (map iterative_of_params_fd ps) (all_abs n) = Ret rf ->
  rootfinder_new p x0' (map iterative_of_params_fd ps) (all_abs n) = Ret rf' ->
  end_alike n (solve (model_from_function func) rf (user_model_new n))
    (solve (model_from_function (flipped e func)) rf' (user_model_new n)).
Proof.
  intros func n e ps damped frozen tol maxit x0 x0' rf rf' Pn Le HP HF H0 p N1 N2.
  apply (C102_difference_quotients func _ n e ps damped frozen tol maxit x0 x0'); auto.
  intros x x' HX; apply flip_values; rewrite Le; apply HF, HX.
Qed.
Print Assumptions C102_flipped_differences.


(** x + y = 3, x y = 2 with either sign of each equation, from any guess. *)
Definition sum_product (v : vec f64) : vec f64 :=
  match v with [x; y] => [nsub (nadd x y) (Fz 3); nsub (nmul x y) (Fz 2)] | _ => [] end.
Definition sum_product_jac (v : vec f64) : mat f64 :=
  match v with [x; y] => [[Fz 1; Fz 1]; [y; x]] | _ => [] end.
Example C102_case : forall s1 s2 damped x0 y0, exists rf,
  rootfinder_new (mkSolverParameters 2 (ndec 1 1000000) 50 NewtonRaphson damped) [x0; y0]
    (map iterative_of_params [default_iterative_params; default_iterative_params]) (all_abs 2) = Ret rf /\
  end_alike 2 (solve (model_from_function_and_jacobian sum_product sum_product_jac) rf (user_model_new 2))
    (solve (model_from_function_and_jacobian (flipped [s1; s2] sum_product) (flipped_rows [s1; s2] sum_product_jac))
       rf (user_model_new 2)).
Proof.
  intros s1 s2 damped x0 y0; eexists; split; [reflexivity|].
  apply (C102_flipped sum_product sum_product_jac 2 [s1; s2] [default_iterative_params; default_iterative_params]
    damped false (ndec 1 1000000) 50 [x0; y0] [x0; y0]); [reflexivity| | | |reflexivity|reflexivity].
  - intros p [<-|[<-|[]]]; split; reflexivity.
  - intros [|x [|y [|? ?]]] [|x' [|y' [|? ?]]] HX; cbn in HX; try tauto; destruct HX as (SX & SY & _).
    split; [|split; [|split; [|exact I]]]; cbn [same srow repeat sum_product sum_product_jac xorb].
    + split; [|split; [|exact I]]; cbn [xorb].
      * apply (sg_sub false); [apply (sg_add false); assumption|apply sg_refl].
      * apply (sg_sub false); [apply (sg_mul false false); assumption|apply sg_refl].
    + split; [apply sg_refl|]; split; [apply sg_refl|exact I].
    + split; [exact SY|]; split; [exact SX|exact I].
  - split; [apply sg_refl|]; split; [apply sg_refl|exact I].
Qed.

(** Solved with each of the signs in the same number of iterations; from 1, 1
    the matrix is singular with each of them. *)
Definition flipped_run (s1 s2 : bool) (x0 y0 : f64) : option (bool * nat) :=
  match rootfinder_new (mkSolverParameters 2 (ndec 1 1000000) 50 NewtonRaphson false) [x0; y0]
      (map iterative_of_params [default_iterative_params; default_iterative_params]) (all_abs 2) with
  | Ret rf =>
      match solve (model_from_function_and_jacobian (flipped [s1; s2] sum_product) (flipped_rows [s1; s2] sum_product_jac))
        rf (user_model_new 2) with
      | Ret (rf', s', r) => Some (is_ok r && forallb (fun a => nltb (ndec 9 10) a && nltb a (ndec 21 10)) (um_inputs s'), rf_iter rf')
      | Panic _ => None
      end
  | Panic _ => None
  end.
Example C102_case_2 : forall s1 s2,
  flipped_run s1 s2 (Fz 3) (Fz 0) = Some (true, 5%nat) /\ flipped_run s1 s2 (Fz 1) (Fz 1) = Some (false, 1%nat).
Proof. intros [|] [|]; split; vm_compute; reflexivity. Qed.
