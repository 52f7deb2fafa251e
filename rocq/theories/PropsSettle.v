(** C98: convergence in floating point when damping is on. *)
From Coq Require Import Reals Lra Lia ZArith List Bool.
From Flocq Require Import Core BinarySingleNaN.
From Verif Require Import Base Num F64 Linalg Residuals Iteratives UserModel Jacobian Solver
  F64Facts F64Arith LimitFacts RNum ExactFacts LocalFacts PropsNorm PropsAccuracy PropsFD PropsStep PropsSlope
  Samples FloatRun PropsFloat LuFloat PropsInverse DampedFloat.
Import ListNotations.
Open Scope R_scope.

(** What is promised about the outcome [o] of a run whose iterations bring the
    distance [d] of the root below [f * d + a]. *)
Definition promised_within (func : vec f64 -> vec f64) (n : nat) (xs : nat -> R) (r sigma e f a : R)
  (tol : f64) (maxit : nat)
  (o : outcome (rootfinder f64 * user_model f64 * result unit (solver_error Empty_set Empty_set))) : Prop :=
  exists rf' s' y, um_inputs s' = y /\ (rf_iter rf' <= maxit)%nat /\
    around n xs r y /\ around n xs (f ^ rf_iter rf' * r + a / (1 - f)) y /\
    (o = Ret (rf', s', Ok tt) /\ (forall i, (i < n)%nat -> Rabs (ent (func y) i) <= key tol) \/
     o = Ret (rf', s', Err NonConvergenceError) /\ rf_iter rf' = maxit) /\
    forall m, (m <= maxit)%nat -> sigma * (f ^ m * r + a / (1 - f)) + e <= key tol ->
      o = Ret (rf', s', Ok tt) /\ (rf_iter rf' <= m)%nat.

(** ** Runs which contract *)
Section Rate.
Context (func : vec f64 -> vec f64) (n : nat) (xs : nat -> R) (r r' sigma e f a : R) (S : vec f64 -> nat -> nat -> R)
  (CP : computed func n xs r' S sigma e) (P0 : 0 <= r <= r') (P1 : 0 <= e) (P3 : 0 <= f < 1) (P4 : 0 <= sigma)
  (Pa : 0 <= a) (IN : f * r + a <= r).
Let E := a / (1 - f).

Lemma E_rate : E * (1 - f) = a /\ 0 <= E.
Proof using P3 Pa.
  split; [unfold E; field; lra|unfold E, Rdiv; apply Rmult_le_pos; [lra|apply Rlt_le, Rinv_0_lt_compat; lra]].
Qed.
Lemma passed x d (tol : f64) : around n xs d x -> 0 <= d <= r -> isnan tol = false ->
  sigma * d + e <= key tol -> ngtb (float_error func x) tol = false.
Proof using CP P0 P1 P4.
  intros A Hd NT HT.
  apply (test_passed func n xs r (r' - r) S sigma e ltac:(replace (r + (r' - r)) with r' by ring; exact CP)
    ltac:(lra) P1 P4 x d tol A); try lra; assumption.
Qed.

Lemma rate next tol : isnan tol = false ->
  (forall x d, around n xs d x -> 0 <= d <= r -> around n xs (f * d + a) (next x)) ->
  forall budget x d, around n xs d x -> 0 <= d <= r ->
  let '(k, y) := float_run func next tol budget x in
  (k <= budget)%nat /\ around n xs r y /\ around n xs (f ^ k * d + (1 - f ^ k) * E) y /\
  (ngtb (float_error func y) tol = true -> k = budget) /\
  forall m, (m <= budget)%nat -> sigma * (f ^ m * d + (1 - f ^ m) * E) + e <= key tol ->
    (k <= m)%nat /\ ngtb (float_error func y) tol = false.
Proof using P0 P1 P3 P4 Pa IN CP.
  intros NT HN; destruct E_rate as (HE & HE0).
  induction budget as [|budget IH]; intros x d A Hd.
  - cbn [float_run pow]; split; [lia|]; split; [apply around_le with d; [exact A|lra]|].
    split; [apply around_le with d; [exact A|lra]|]; split; [reflexivity|].
    intros m Hm HT; replace m with O in HT by lia; cbn [pow] in HT; split; [lia|].
    apply (passed x d tol A ltac:(lra) NT); lra.
  - cbn [float_run]; destruct (ngtb (float_error func x) tol) eqn:T.
    + assert (QD : 0 <= f * d <= f * r)
        by (split; [apply Rmult_le_pos; lra|apply Rmult_le_compat_l; lra]).
      specialize (IH (next x) (f * d + a) (HN x d A Hd) ltac:(lra)).
      assert (ST : forall m, f ^ m * (f * d + a) + (1 - f ^ m) * E
        = f ^ Datatypes.S m * d + (1 - f ^ Datatypes.S m) * E).
      { intros m; cbn [pow]; replace (f * d + a) with (f * d + E * (1 - f)) by lra; ring. }
      destruct (float_run func next tol budget (next x)) as [k y]; destruct IH as (I1 & I2 & I3 & I4 & I5).
      split; [lia|]; split; [exact I2|]; split; [rewrite <- ST; exact I3|].
      split; [intros Q; rewrite (I4 Q); reflexivity|].
      intros [|m] Hm HT.
      * exfalso; cbn [pow] in HT; assert (Q := passed x d tol A ltac:(lra) NT ltac:(lra)).
        rewrite T in Q; discriminate.
      * rewrite <- ST in HT; destruct (I5 m ltac:(lia) HT) as (J1 & J2); split; [lia|exact J2].
    + cbn [pow]; split; [lia|]; split; [apply around_le with d; [exact A|lra]|].
      split; [apply around_le with d; [exact A|lra]|]; split; [congruence|].
      intros m Hm HT; split; [lia|exact T].
Qed.

Definition reached (tol : f64) (maxit k : nat) (y : vec f64) : Prop :=
  (k <= maxit)%nat /\ around n xs r y /\ around n xs (f ^ k * r + (1 - f ^ k) * E) y /\
  (ngtb (float_error func y) tol = true -> k = maxit) /\
  forall m, (m <= maxit)%nat -> sigma * (f ^ m * r + (1 - f ^ m) * E) + e <= key tol ->
    (k <= m)%nat /\ ngtb (float_error func y) tol = false.

Lemma promise_of_rate provided get_jac (p : solver_parameters f64) rf rf' k y Q : isnan (sp_tolerance p) = false ->
  finished func n provided get_jac p Q rf k y rf' -> reached (sp_tolerance p) (sp_max_iter p) k y ->
  promised_within func n xs r sigma e f a (sp_tolerance p) (sp_max_iter p)
    (solve (mkModel um_problem_size um_set_iteratives um_inputs (um_evaluate func) um_get_residuals provided get_jac
      default_get_memory default_set_memory show_infallible show_infallible) rf (user_model_new n)).
Proof using P0 P1 P3 P4 Pa IN CP.
  intros NT (F1 & F2 & _) (S1 & S2 & S3 & S4 & S5); exists rf', (float_state func n y), y; rewrite F2.
  assert (PW : forall m, 0 <= f ^ m) by (intros m; apply pow_le; lra).
  destruct E_rate as (_ & HE0); fold E.
  assert (W : forall m, (1 - f ^ m) * E <= E).
  { intros m; specialize (PW m); assert (0 <= f ^ m * E) by (apply Rmult_le_pos; assumption); lra. }
  split; [reflexivity|]; split; [exact S1|]; split; [exact S2|].
  split; [apply around_le with (1 := S3); specialize (W k); lra|].
  rewrite F1; split.
  - destruct (ngtb (float_error func y) (sp_tolerance p)) eqn:T.
    + right; split; [reflexivity|apply S4; reflexivity].
    + left; split; [reflexivity|].
      apply (test_means func n xs r (r' - r) S sigma e ltac:(replace (r + (r' - r)) with r' by ring; exact CP));
        [apply around_le with r; [exact S2|lra]|exact NT|exact T].
  - intros m Hm HT; destruct (S5 m Hm) as (J1 & J2).
    + apply Rle_trans with (2 := HT); apply Rplus_le_compat_r, Rmult_le_compat_l; [exact P4|specialize (W m); lra].
    + rewrite J2; split; [reflexivity|exact J1].
Qed.
End Rate.

(** ** The point half way *)
(** The roundings of one iteration, damped or not. *)
Definition damped_roundings (n : nat) (b phi B e : R) : R := roundings n b phi B e + 3 * (u53 * B) + 6 * tiny.

Lemma half_error (x : f64) B : isfin x = true -> Rabs (key x) <= B -> 0 <= B <= huge ->
  isfin (nmul x half) = true /\ Rabs (key (nmul x half) - key x / 2) <= u53 * B / 2 + tiny.
Proof.
  intros FX HX HB; assert (FH : isfin half = true) by (vm_compute; reflexivity).
  assert (Q := mul_fin x half FX FH); rewrite (proj1 half_key) in Q.
  assert (A : Rabs (key x * (/ 2)) <= B / 2) by (rewrite Rabs_mult, (Rabs_pos_eq (/ 2)) by lra; lra).
  destruct (rounded _ _ Q) as (R1 & R2); [lra|]; split; [exact R1|].
  replace (key x / 2) with (key x * (/ 2)) by lra.
  pose proof u53_small; assert (u53 * Rabs (key x * (/ 2)) <= u53 * (B / 2)) by (apply Rmult_le_compat_l; lra); lra.
Qed.

Lemma halfway_around n xs B dz dy z y : around n xs dz z -> around n xs dy y -> dy <= dz ->
  (forall i, (i < n)%nat -> Rabs (xs i) + dz <= B) -> 0 <= B <= huge ->
  around n xs ((dz + dy) / 2 + 3 * (u53 * B) + 6 * tiny) (halfway64 z y).
Proof.
  intros (Lz & Az) (Ly & Ay) HD BB PB; split.
  { unfold halfway64; rewrite map2_length; lia. }
  intros i Hi; destruct (Az i Hi) as (Fz & Dz); destruct (Ay i Hi) as (Fy & Dy); specialize (BB i Hi).
  unfold ent in *; unfold halfway64; rewrite nth_map2 by lia.
  set (a := nth i z n0) in *; set (c := nth i y n0) in *; clearbody a c.
  pose proof (Rabs_triang_inv (key a) (xs i)); pose proof (Rabs_triang_inv (key c) (xs i)).
  destruct (half_error a B Fz ltac:(lra) PB) as (F1 & E1); destruct (half_error c B Fy ltac:(lra) PB) as (F2 & E2).
  pose proof u53_small as HU; pose proof tiny_pos as HT; pose proof huge_big as HH.
  assert (UB : 0 <= u53 * B <= B) by (split; [apply Rmult_le_pos; lra|rewrite <- (Rmult_1_l B) at 2; apply Rmult_le_compat_r; lra]).
  assert (Q := add_fin (nmul a half) (nmul c half) F1 F2).
  change (isnan (damped1 a c) = false /\ key (damped1 a c) = sat (rnd (key (nmul a half) + key (nmul c half)))) in Q.
  set (s := key (nmul a half) + key (nmul c half)) in *.
  assert (S1 : Rabs (s - (key a + key c) / 2) <= u53 * B + 2 * tiny).
  { replace (s - (key a + key c) / 2) with ((key (nmul a half) - key a / 2) + (key (nmul c half) - key c / 2)) by (unfold s; lra).
    eapply Rle_trans; [apply Rabs_triang|]; lra. }
  assert (S2 : Rabs s <= 2 * B + 1).
  { pose proof (Rabs_triang_inv s ((key a + key c) / 2)).
    assert (Rabs ((key a + key c) / 2) <= B).
    { unfold Rdiv; rewrite Rabs_mult, (Rabs_pos_eq (/ 2)) by lra; pose proof (Rabs_triang (key a) (key c)); lra. }
    lra. }
  assert (S3 : u53 * Rabs s <= 2 * (u53 * B) + 2 * tiny).
  { assert (Rabs s <= B + (u53 * B + 2 * tiny)).
    { pose proof (Rabs_triang_inv s ((key a + key c) / 2)).
      assert (Rabs ((key a + key c) / 2) <= B).
      { unfold Rdiv; rewrite Rabs_mult, (Rabs_pos_eq (/ 2)) by lra; pose proof (Rabs_triang (key a) (key c)); lra. }
      lra. }
    apply Rle_trans with (u53 * (B + (u53 * B + 2 * tiny))); [apply Rmult_le_compat_l; lra|].
    assert (u53 * (u53 * B) <= 1 * (u53 * B)) by (apply Rmult_le_compat_r; lra).
    assert (u53 * (2 * tiny) <= 1 * (2 * tiny)) by (apply Rmult_le_compat_r; lra). lra. }
  destruct (rounded s (damped1 a c) Q) as (R1 & R2); [lra|].
  split; [exact R1|].
  replace (key (damped1 a c) - xs i) with ((key (damped1 a c) - s) + (s - (key a + key c) / 2) +
    ((key a - xs i) / 2 + (key c - xs i) / 2)) by lra.
  eapply Rle_trans; [apply Rabs_triang|]; eapply Rle_trans; [apply Rplus_le_compat_r, Rabs_triang|].
  assert (Rabs ((key a - xs i) / 2 + (key c - xs i) / 2) <= (dz + dy) / 2).
  { eapply Rle_trans; [apply Rabs_triang|]; unfold Rdiv; rewrite !Rabs_mult, (Rabs_pos_eq (/ 2)) by lra; lra. }
  lra.
Qed.

(** ** The runs *)
Section Run.
Context (func : vec f64 -> vec f64) (n : nat) (xs : nat -> R) (r delta : R) (S : vec f64 -> nat -> nat -> R)
  (sigma e b q B : R) (its : list (iterative f64)).
Let phi := sigma * (r + delta) + e.
Let dr := damped_roundings n b phi B e.
Let f := (1 + q) / 2.
Let a := f * delta + dr.
Context (CP : computed func n xs (r + delta) S sigma e) (FI : Forall free_float its) (LI : length its = n)
  (CT : contracting n xs r delta sigma e b q B) (IN : f * (r + delta) + dr <= r).

Lemma kept_around z y d : around n xs (d + delta) z -> around n xs (q * (d + delta) + roundings n b phi B e) y ->
  0 <= d <= r -> around n xs (f * d + a) (kept_point func z y).
Proof using CT.
  intros AZ AY Hd; destruct CT as [T1 T2 T3 T4 T5 T6 T7 T8 T9 T10 T11]; fold phi in T11.
  pose proof u53_small as HU; pose proof tiny_pos as HT.
  assert (UB : 0 <= u53 * B) by (apply Rmult_le_pos; lra).
  assert (QD : q * (d + delta) <= d + delta) by (rewrite <- (Rmult_1_l (d + delta)) at 2; apply Rmult_le_compat_r; lra).
  assert (RP : 0 <= roundings n b phi B e)
    by (exact (eps_pos n r delta sigma e b B T1 T2 T3 T4 T6 T8)).
  unfold kept_point; destruct ngtb.
  - assert (AY' : around n xs (q * (d + delta) + roundings n b phi B e) y) by exact AY.
    assert (AZ' : around n xs (d + delta + roundings n b phi B e) z) by (apply around_le with (1 := AZ); lra).
    destruct (Rle_or_lt (q * (d + delta) + roundings n b phi B e) (d + delta)) as [LE|GT].
    + apply around_le with (1 := halfway_around n xs B _ _ z y AZ AY' LE
        ltac:(intros i Hi; specialize (T7 i Hi); lra) T8).
      unfold a, f, dr, damped_roundings; lra.
    + assert (D' : q * (d + delta) + roundings n b phi B e <= r).
      { apply Rle_trans with (2 := T11); apply Rplus_le_compat_r, Rmult_le_compat_l; lra. }
      apply around_le with (1 := halfway_around n xs B _ _ z y (around_le n xs _ _ z AZ (Rlt_le _ _ GT)) AY' (Rle_refl _)
        ltac:(intros i Hi; specialize (T7 i Hi); lra) T8).
      unfold a, f, dr, damped_roundings; lra.
  - apply around_le with (1 := AY); unfold a, f, dr, damped_roundings; lra.
Qed.

Lemma a_pos : 0 <= a /\ 0 <= f < 1 /\ 0 <= dr.
Proof using CT.
  destruct CT as [T1 T2 T3 T4 T5 T6 T7 T8 T9 T10 T11].
  pose proof u53_small as HU; pose proof tiny_pos as HT.
  assert (UB : 0 <= u53 * B) by (apply Rmult_le_pos; lra).
  assert (RP : 0 <= roundings n b phi B e)
    by (exact (eps_pos n r delta sigma e b B T1 T2 T3 T4 T6 T8)).
  assert (FP : 0 <= f < 1) by (unfold f; lra).
  assert (DP : 0 <= dr) by (unfold dr, damped_roundings; lra).
  split; [|split; assumption]; unfold a; assert (0 <= f * delta) by (apply Rmult_le_pos; lra); lra.
Qed.

Lemma newton_damped provided get_jac (K : vec f64 -> mat f64) (Z : vec f64 -> vec f64) (tol : f64) (maxit : nat) (x0 : vec f64) (rf : rootfinder f64) :
  isnan tol = false ->
  (forall x, around n xs r x -> displaced n delta x (Z x) /\ source func n provided get_jac its x (K x) (Z x) /\
     exists H, lu_inverse (K x) = Some H /\ nearly_inverse n H (S (Z x)) b q) ->
  around n xs r x0 ->
  rootfinder_new (mkSolverParameters n tol maxit NewtonRaphson true) x0 its (all_abs n) = Ret rf ->
  promised_within func n xs r sigma e f a tol maxit
    (solve (mkModel um_problem_size um_set_iteratives um_inputs (um_evaluate func) um_get_residuals provided get_jac
      default_get_memory default_set_memory show_infallible show_infallible) rf (user_model_new n)).
Proof using CP FI LI CT IN.
  intros NT HS A0 HN; set (p := mkSolverParameters n tol maxit NewtonRaphson true) in *.
  assert (SU : set_up n p its rf /\ rf_iter rf = O /\ rf_initial_guess rf = x0).
  { unfold rootfinder_new in HN; destruct negb; [discriminate|]; destruct negb; [discriminate|].
    destruct negb; [discriminate|]; injection HN as <-; repeat split. }
  destruct SU as (SU & I0 & G0); destruct a_pos as (PA & PF & PD).
  assert (FI' := FI); assert (LI' := LI); destruct CT as [T1 T2 T3 T4 T5 T6 T7 T8 T9 T10 T11].
  assert (INa : f * r + a <= r) by (unfold a; lra).
  set (next := fun x => match lu_inverse (K x) with
    | Some H => kept_point func (Z x) (float_next func H (Z x)) | None => x end).
  assert (ST : forall x d, around n xs d x -> 0 <= d <= r ->
    around n xs (f * d + a) (next x) /\
    exists A z H y, source func n provided get_jac its x A z /\ lu_inverse A = Some H /\ moves func n its H z y /\
      length z = n /\ length y = n /\ length (func y) = n /\ next x = kept_point func z y).
  { intros x d A Hd; destruct (HS x ltac:(apply around_le with d; [exact A|lra])) as (D1 & D2 & H & D3 & D4).
    assert (AZ := displaced_around n xs delta x (Z x) d A D1).
    destruct (one_step func n xs r delta S sigma e b q B its CP FI LI T1 T2 T3 T4 T5 T6 T7 T8 T9 T10 T11 (Z x) H d AZ Hd D4)
      as (M1 & M2).
    unfold next; rewrite D3; split; [apply kept_around; assumption|].
    exists (K x), (Z x), H, (float_next func H (Z x)).
    split; [exact D2|]; split; [exact D3|]; split; [exact M1|]; split; [apply AZ|]; split; [apply M2|].
    split; [|reflexivity]; apply CP; apply around_le with (1 := M2).
    assert (q * (d + delta) <= q * (r + delta)) by (apply Rmult_le_compat_l; lra); lra. }
  destruct (damped_newton_solve func n provided get_jac p its eq_refl (around n xs r)
    ltac:(intros x A; apply CP; apply around_le with r; [exact A|lra]) next rf eq_refl SU I0 ltac:(rewrite G0; exact A0)
    ltac:(intros x A; destruct (ST x r A ltac:(lra)) as (N1 & A1 & z & H & y & N2 & N3 & N4 & N5 & N6 & N7 & N8);
      exists A1, z, H, y; repeat (split; [assumption|]); apply around_le with (1 := N1); exact INa))
    as (rf' & FN).
  assert (RR := rate func n xs r (r + delta) sigma e f a S CP ltac:(lra) T3 PF T6 PA INa next tol NT
    ltac:(intros x d A Hd; apply (ST x d A Hd)) maxit x0 r A0 ltac:(lra)).
  rewrite G0 in FN; change (sp_tolerance p) with tol in FN; change (sp_max_iter p) with maxit in FN.
  destruct (float_run func next tol maxit x0) as [k y]; cbn [fst snd] in FN.
  exact (promise_of_rate func n xs r (r + delta) sigma e f a S CP ltac:(lra) T3 PF T6 PA INa provided get_jac p rf rf' k y _ NT FN RR).
Qed.

Lemma stationary_damped provided get_jac (K : mat f64) (z : vec f64) (H : mat f64) (tol : f64) (maxit : nat) (x0 : vec f64) (rf : rootfinder f64) :
  isnan tol = false -> displaced n delta x0 z -> source func n provided get_jac its x0 K z ->
  lu_inverse K = Some H -> (forall x, around n xs (r + delta) x -> nearly_inverse n H (S x) b q) ->
  around n xs r x0 ->
  rootfinder_new (mkSolverParameters n tol maxit (QuasiNewton StationaryNewton) true) x0 its (all_abs n) = Ret rf ->
  promised_within func n xs r sigma e f a tol maxit
    (solve (mkModel um_problem_size um_set_iteratives um_inputs (um_evaluate func) um_get_residuals provided get_jac
      default_get_memory default_set_memory show_infallible show_infallible) rf (user_model_new n)).
Proof using CP FI LI CT IN.
  intros NT DZ SR EH NI A0 HN; set (p := mkSolverParameters n tol maxit (QuasiNewton StationaryNewton) true) in *.
  assert (SU : set_up n p its rf /\ rf_iter rf = O /\ rf_initial_guess rf = x0 /\
    jm_compute_at_next (rf_jacobian rf) = true).
  { unfold rootfinder_new in HN; destruct negb; [discriminate|]; destruct negb; [discriminate|].
    destruct negb; [discriminate|]; injection HN as <-; repeat split. }
  destruct SU as (SU & I0 & G0 & C0); destruct a_pos as (PA & PF & PD).
  assert (FI' := FI); assert (LI' := LI); destruct CT as [T1 T2 T3 T4 T5 T6 T7 T8 T9 T10 T11].
  assert (INa : f * r + a <= r) by (unfold a; lra).
  assert (FQ : forall d w, 0 <= d <= r -> around n xs (q * (d + delta) + roundings n b phi B e) w ->
    length w = n /\ length (func w) = n).
  { intros d w Hd A; split; [apply A|]; apply CP, around_le with (1 := A).
    assert (q * (d + delta) <= q * (r + delta)) by (apply Rmult_le_compat_l; lra).
    change (q * (r + delta) + roundings n b phi B e <= r) in T11; lra. }
  assert (OS := one_step func n xs r delta S sigma e b q B its CP FI LI T1 T2 T3 T4 T5 T6 T7 T8 T9 T10 T11).
  set (next := fun x => kept_point func x (float_next func H x)).
  assert (ST : forall x d, around n xs d x -> 0 <= d <= r ->
    around n xs (f * d + a) (next x) /\
    exists y, moves func n its H x y /\ length x = n /\ length y = n /\ length (func y) = n /\ next x = kept_point func x y).
  { intros x d A Hd; assert (AX : around n xs (d + delta) x) by (apply around_le with d; [exact A|lra]).
    destruct (OS x H d AX Hd ltac:(apply NI, around_le with d; [exact A|lra])) as (M1 & M2).
    split; [apply kept_around; assumption|].
    exists (float_next func H x); destruct (FQ d _ Hd M2) as (Q1 & Q2).
    split; [exact M1|]; split; [apply AX|]; split; [exact Q1|]; split; [exact Q2|reflexivity]. }
  assert (AZ := displaced_around n xs delta x0 z r A0 DZ).
  destruct (OS z H r AZ ltac:(lra) ltac:(apply NI; exact AZ)) as (M1 & M2).
  set (y := float_next func H z) in *; destruct (FQ r y ltac:(lra) M2) as (Q1 & Q2).
  assert (AY : around n xs (f * r + a) (kept_point func z y)) by (apply kept_around; [exact AZ|exact M2|lra]).
  destruct (damped_stationary_solve func n provided get_jac p its eq_refl (around n xs r)
    ltac:(intros x A; apply CP; apply around_le with r; [exact A|lra]) K z H y rf next eq_refl SU I0 C0
    ltac:(rewrite G0; exact A0) ltac:(rewrite G0; exact SR) EH M1 (proj1 AZ) Q1 Q2
    ltac:(apply around_le with (1 := AY); exact INa)
    ltac:(intros x A; destruct (ST x r A ltac:(lra)) as (N1 & v & N2 & N3 & N4 & N5 & N6);
      exists v; repeat (split; [assumption|]); apply around_le with (1 := N1); exact INa))
    as (k & w & rf' & FN & RUN).
  rewrite G0 in RUN.
  assert (RR := rate func n xs r (r + delta) sigma e f a S CP ltac:(lra) T3 PF T6 PA INa next tol NT
    ltac:(intros x d A Hd; apply (ST x d A Hd))).
  destruct (E_rate f a PF PA) as (HE & HE0).
  assert (PS := passed func n xs r (r + delta) sigma e S CP ltac:(lra) T3 T6).
  assert (SE : reached func n xs r sigma e f a tol maxit k w).
  { unfold reached; change (sp_tolerance p) with tol in *; change (sp_max_iter p) with maxit in *.
    destruct maxit as [|budget].
    - injection RUN as -> ->; cbn [pow].
      split; [lia|]; split; [exact A0|]; split; [apply around_le with r; [exact A0|lra]|]; split; [reflexivity|].
      intros m Hm HT; replace m with O in HT by lia; cbn [pow] in HT; split; [lia|].
      apply (PS x0 r tol A0 ltac:(lra) NT); lra.
    - destruct (ngtb (float_error func x0) tol) eqn:T.
      + assert (QD : 0 <= f * r) by (apply Rmult_le_pos; lra).
        specialize (RR budget (kept_point func z y) (f * r + a) AY ltac:(lra)).
        assert (SP : forall m, f ^ m * (f * r + a) + (1 - f ^ m) * (a / (1 - f))
          = f ^ Datatypes.S m * r + (1 - f ^ Datatypes.S m) * (a / (1 - f))).
        { intros m; cbn [pow]; replace (f * r + a) with (f * r + a / (1 - f) * (1 - f)) by lra; ring. }
        destruct (float_run func next tol budget (kept_point func z y)) as [k1 y1].
        injection RUN as -> ->; destruct RR as (J1 & J2 & J3 & J4 & J5).
        split; [lia|]; split; [exact J2|]; split; [rewrite <- SP; exact J3|].
        split; [intros Q; rewrite (J4 Q); reflexivity|].
        intros [|m] Hm HT.
        * exfalso; cbn [pow] in HT; assert (Q := PS x0 r tol A0 ltac:(lra) NT ltac:(lra)).
          rewrite T in Q; discriminate.
        * rewrite <- SP in HT; destruct (J5 m ltac:(lia) HT) as (L1 & L2); split; [lia|exact L2].
      + injection RUN as -> ->; cbn [pow].
        split; [lia|]; split; [exact A0|]; split; [apply around_le with r; [exact A0|lra]|]; split; [congruence|].
        intros m Hm HT; split; [lia|exact T]. }
  exact (promise_of_rate func n xs r (r + delta) sigma e f a S CP ltac:(lra) T3 PF T6 PA INa provided get_jac p rf rf' k w _ NT FN SE).
Qed.
End Run.

(** ** The theorems *)

(** With damping the factor is half way between [q] and 1, and the roundings
    of the point half way come on top; they must leave room too. *)
Definition damped_rate (q : R) : R := (1 + q) / 2.
Definition damped_shift (n : nat) (r delta sigma e b q B : R) : R :=
  damped_rate q * delta + damped_roundings n b (sigma * (r + delta) + e) B e.
Record contracting_damped (n : nat) (xs : nat -> R) (r delta sigma e b q B : R) : Prop := mkContractingDamped {
  cd_contracting : contracting n xs r delta sigma e b q B;
  cd_room : damped_rate q * r + damped_shift n r delta sigma e b q B <= r
}.

Theorem C98_newton : forall func jac n xs r S sigma e b q B tol maxit x0 rf,
  computed func n xs r S sigma e -> contracting_damped n xs r 0 sigma e b q B ->
  (forall x, around n xs r x -> squaref n (jac x) /\
     exists H, lu_inverse (jac x) = Some H /\ nearly_inverse n H (S x) b q) ->
  isnan tol = false -> around n xs r x0 ->
  rootfinder_new (mkSolverParameters n tol maxit NewtonRaphson true) x0 (jac_iteratives64 n) (all_abs n) = Ret rf ->
  promised_within func n xs r sigma e (damped_rate q) (damped_shift n r 0 sigma e b q B) tol maxit
    (solve (model_from_function_and_jacobian func jac) rf (user_model_new n)).
Proof.
  intros func jac n xs r S sigma e b q B tol maxit x0 rf CP (CT & RO) HJ NT A0 HN.
  rewrite <- (Rplus_0_r r) in CP at 1.
  refine (newton_damped func n xs r 0 S sigma e b q B (jac_iteratives64 n) CP (proj1 (jac_free n)) (proj2 (jac_free n))
    CT _ (fun _ => true) (um_get_jacobian jac) jac (fun x => x) tol maxit x0 rf NT _ A0 HN).
  - unfold damped_shift, damped_rate in RO; lra.
  - intros x A; destruct (HJ x A) as (SQ & H & J1 & J2); split.
    + split; [apply A|]; intros i Hi; split; [apply A, Hi|].
      unfold Rminus; rewrite Rplus_opp_r, Rabs_R0; lra.
    + split; [|exists H; split; assumption].
      apply analytic_source; [apply CP; rewrite Rplus_0_r; exact A|exact SQ].
Qed.
Print Assumptions C98_newton.

Theorem C98_stationary : forall func jac n xs r S sigma e b q B H tol maxit x0 rf,
  computed func n xs r S sigma e -> contracting_damped n xs r 0 sigma e b q B ->
  squaref n (jac x0) -> lu_inverse (jac x0) = Some H ->
  (forall x, around n xs r x -> nearly_inverse n H (S x) b q) ->
  isnan tol = false -> around n xs r x0 ->
  rootfinder_new (mkSolverParameters n tol maxit (QuasiNewton StationaryNewton) true) x0
    (jac_iteratives64 n) (all_abs n) = Ret rf ->
  promised_within func n xs r sigma e (damped_rate q) (damped_shift n r 0 sigma e b q B) tol maxit
    (solve (model_from_function_and_jacobian func jac) rf (user_model_new n)).
Proof.
  intros func jac n xs r S sigma e b q B H tol maxit x0 rf CP (CT & RO) SQ EH HJ NT A0 HN.
  rewrite <- (Rplus_0_r r) in CP at 1.
  refine (stationary_damped func n xs r 0 S sigma e b q B (jac_iteratives64 n) CP (proj1 (jac_free n)) (proj2 (jac_free n))
    CT _ (fun _ => true) (um_get_jacobian jac) (jac x0) x0 H tol maxit x0 rf NT _ _ EH _ A0 HN).
  - unfold damped_shift, damped_rate in RO; lra.
  - split; [apply A0|]; intros i Hi; split; [apply A0, Hi|].
    unfold Rminus; rewrite Rplus_opp_r, Rabs_R0; lra.
  - apply analytic_source; [apply CP; rewrite Rplus_0_r; exact A0|exact SQ].
  - intros x A; apply HJ; rewrite <- (Rplus_0_r r); exact A.
Qed.
Print Assumptions C98_stationary.

Theorem C98_finite_differences : forall func n xs r delta S sigma e b q B its step tol maxit x0 rf,
  (1 <= n)%nat -> computed func n xs (r + delta) S sigma e -> contracting_damped n xs r delta sigma e b q B ->
  Forall free_float its -> length its = n ->
  (forall x, around n xs r x -> small_shifts n its delta x (step x) /\
     exists H, lu_inverse (fd_float func n x (step x)) = Some H /\
       nearly_inverse n H (S (shift x (n - 1) (nth (n - 1) (step x) n0))) b q) ->
  isnan tol = false -> around n xs r x0 ->
  rootfinder_new (mkSolverParameters n tol maxit NewtonRaphson true) x0 its (all_abs n) = Ret rf ->
  promised_within func n xs r sigma e (damped_rate q) (damped_shift n r delta sigma e b q B) tol maxit
    (solve (model_from_function func) rf (user_model_new n)).
Proof.
  intros func n xs r delta S sigma e b q B its step tol maxit x0 rf Pn CP (CT & RO) FI LI HJ NT A0 HN.
  assert (Pd := ct_delta _ _ _ _ _ _ _ _ _ CT).
  refine (newton_damped func n xs r delta S sigma e b q B its CP FI LI CT _
    default_jacobian_provided (default_get_jacobian um_inputs) (fun x => fd_float func n x (step x))
    (fun x => shift x (n - 1) (nth (n - 1) (step x) n0)) tol maxit x0 rf NT _ A0 HN).
  { unfold damped_shift, damped_rate in RO; lra. }
  intros x A; destruct (HJ x A) as (SD & H & J1 & J2).
  split; [apply (shift_around n xs r its delta x (step x)); auto; lia|].
  split; [|exists H; split; assumption].
  apply fd_source; [exact Pn|apply A|apply SD|apply SD| | |reflexivity].
  - apply CP, around_le with r; [exact A|lra].
  - intros j Hj; apply CP, (shift_around n xs r its delta x (step x)); auto.
Qed.
Print Assumptions C98_finite_differences.

Theorem C98_stationary_differences : forall func n xs r delta S sigma e b q B its d H tol maxit x0 rf,
  (1 <= n)%nat -> computed func n xs (r + delta) S sigma e -> contracting_damped n xs r delta sigma e b q B ->
  Forall free_float its -> length its = n -> small_shifts n its delta x0 d ->
  lu_inverse (fd_float func n x0 d) = Some H ->
  (forall x, around n xs (r + delta) x -> nearly_inverse n H (S x) b q) ->
  isnan tol = false -> around n xs r x0 ->
  rootfinder_new (mkSolverParameters n tol maxit (QuasiNewton StationaryNewton) true) x0 its (all_abs n) = Ret rf ->
  promised_within func n xs r sigma e (damped_rate q) (damped_shift n r delta sigma e b q B) tol maxit
    (solve (model_from_function func) rf (user_model_new n)).
Proof.
  intros func n xs r delta S sigma e b q B its d H tol maxit x0 rf Pn CP (CT & RO) FI LI SD EH HJ NT A0 HN.
  assert (Pd := ct_delta _ _ _ _ _ _ _ _ _ CT).
  refine (stationary_damped func n xs r delta S sigma e b q B its CP FI LI CT _
    default_jacobian_provided (default_get_jacobian um_inputs) (fd_float func n x0 d)
    (shift x0 (n - 1) (nth (n - 1) d n0)) H tol maxit x0 rf NT _ _ EH HJ A0 HN).
  - unfold damped_shift, damped_rate in RO; lra.
  - apply (shift_around n xs r its delta x0 d); auto; lia.
  - apply fd_source; [exact Pn|apply A0|apply SD|apply SD| | |reflexivity].
    + apply CP, around_le with r; [exact A0|lra].
    + intros j Hj; apply CP, (shift_around n xs r its delta x0 d); auto.
Qed.
Print Assumptions C98_stationary_differences.

(** With conditions on the jacobian alone. *)
Theorem C98_well_conditioned : forall func n xs r S sigma e M beta q B jac tol maxit x0 rf,
  let rho := INR n * inversion_error n M beta in
  let b' := beta * (1 + rho) in
  let q' := q + beta * rho * sigma in
  computed func n xs r S sigma e -> conditioned n M beta -> contracting_damped n xs r 0 sigma e b' q' B ->
  (forall x, around n xs r x -> fits n M beta q (jac x) (S x)) ->
  isnan tol = false -> around n xs r x0 ->
  rootfinder_new (mkSolverParameters n tol maxit NewtonRaphson true) x0 (jac_iteratives64 n) (all_abs n) = Ret rf ->
  promised_within func n xs r sigma e (damped_rate q') (damped_shift n r 0 sigma e b' q' B) tol maxit
    (solve (model_from_function_and_jacobian func jac) rf (user_model_new n)).
Proof.
  intros func n xs r S sigma e M beta q B jac tol maxit x0 rf rho b' q' CP CD CT FT NT A0 HN.
  apply (C98_newton func jac n xs r S sigma e b' q' B tol maxit x0 rf); try assumption.
  intros x AX; split; [apply FT; exact AX|].
  apply fits_inverse; [exact CD|intros i Hi; apply (CP x AX); exact Hi|apply FT; exact AX].
Qed.
Print Assumptions C98_well_conditioned.

(** ** Cases *)

(** A system of two equations whose jacobian, as given, makes the error grow
    fiftyfold in the first iteration from (1, 0): damping steps in. *)
Definition stretched (v : vec f64) : vec f64 := match v with [x; y] => [x; nmul (Fz 128) y] | _ => [] end.
Definition stretched_jac (_ : vec f64) : mat f64 := [[Fz 1; Fz 0]; [Fz (-64); Fz 128]].
Definition stretched_slopes (_ : vec f64) (i j : nat) : R :=
  if Nat.eqb i j then (if Nat.eqb i 0 then 1 else 128) else 0.

Definition stretched_run (damping : bool) (m : resolution_method) : option (nat * bool * bool) :=
  match rootfinder_new (mkSolverParameters 2 (ndec 1 1000000) 70 m damping) [Fz 1; Fz 0] (jac_iteratives64 2) (all_abs 2) with
  | Ret rf =>
      match solve (model_from_function_and_jacobian stretched stretched_jac) rf (user_model_new 2) with
      | Ret (rf', s', Ok tt) => Some (rf_iter rf', forallb (neqb n0) (um_inputs s'), true)
      | Ret (rf', s', Err _) => Some (rf_iter rf', forallb (neqb n0) (um_inputs s'), false)
      | Panic _ => None
      end
  | Panic _ => None
  end.
Example C98_case :
  stretched_run true NewtonRaphson = Some (3%nat, true, true) /\
  stretched_run false NewtonRaphson = Some (2%nat, true, true) /\
  stretched_run true (QuasiNewton StationaryNewton) = Some (3%nat, true, true).
Proof. repeat split; vm_compute; reflexivity. Qed.

Lemma stretched_inverse : exists H, lu_inverse (stretched_jac []) = Some H /\
  forall x, nearly_inverse 2 H (stretched_slopes x) 1 0.5.
Proof.
  assert (C : match lu_inverse (stretched_jac []) with
    | Some [[a; b]; [c; d]] => neqb a n1 && neqb b n0 && neqb c half && neqb d (ndec 1 128)
        && (isfin a && isfin b && isfin c && isfin d)
    | _ => false end = true) by (vm_compute; reflexivity).
  destruct (lu_inverse (stretched_jac [])) as [H|]; [|discriminate]; exists H; split; [reflexivity|].
  destruct H as [|[|a [|b [|? ?]]] [|[|c [|d [|? ?]]] [|? ?]]]; try discriminate.
  apply andb_prop in C as (C & C2); apply andb_prop in C2 as (C2 & F4); apply andb_prop in C2 as (C2 & F3).
  apply andb_prop in C2 as (F1 & F2); apply andb_prop in C as (C & E4); apply andb_prop in C as (C & E3).
  apply andb_prop in C as (E1 & E2).
  assert (Kq : key (ndec 1 128 : f64) = / 128).
  { rewrite (key_sf (ndec 1 128) false 4503599627370496 (-59)) by (vm_compute; reflexivity); unfold F2R; cbn; lra. }
  apply eqb_key in E1; [|apply fin_not_nan; assumption|vm_compute; reflexivity].
  apply eqb_key in E2; [|apply fin_not_nan; assumption|reflexivity].
  apply eqb_key in E3; [|apply fin_not_nan; assumption|vm_compute; reflexivity].
  apply eqb_key in E4; [|apply fin_not_nan; assumption|vm_compute; reflexivity].
  rewrite Kq in E4; rewrite (proj1 half_key) in E3; rewrite key_n1 in E1; change (key n0) with 0 in E2.
  intros x; split; [split; [reflexivity|]; intros l [<-|[<-|[]]]; reflexivity|].
  split; [intros [|[|i]] [|[|j]] Hi Hj; try lia; assumption|].
  split; intros [|[|i]] Hi; try lia; cbn [rsum].
  - change (mentf [[a; b]; [c; d]] 0 0) with (key a); change (mentf [[a; b]; [c; d]] 0 1) with (key b).
    rewrite E1, E2, Rabs_R0, Rabs_pos_eq; lra.
  - change (mentf [[a; b]; [c; d]] 1 0) with (key c); change (mentf [[a; b]; [c; d]] 1 1) with (key d).
    rewrite E3, E4, !Rabs_pos_eq; lra.
  - change (mentf [[a; b]; [c; d]] 0 0) with (key a); change (mentf [[a; b]; [c; d]] 0 1) with (key b).
    unfold stretched_slopes; cbn [Nat.eqb]; rewrite E1, E2.
    match goal with |- Rabs ?u + (Rabs ?v + _) <= _ => replace u with 0 by lra; replace v with 0 by lra end.
    rewrite Rabs_R0; lra.
  - change (mentf [[a; b]; [c; d]] 1 0) with (key c); change (mentf [[a; b]; [c; d]] 1 1) with (key d).
    unfold stretched_slopes; cbn [Nat.eqb]; rewrite E3, E4.
    match goal with |- Rabs ?u + (Rabs ?v + _) <= _ => replace u with (- / 2) by lra; replace v with 0 by lra end.
    rewrite Rabs_R0, Rabs_Ropp, Rabs_pos_eq; lra.
Qed.

Example C98_case_2 : forall x0 y0 maxit, isfin x0 = true -> isfin y0 = true ->
  Rabs (key x0) <= 1 -> Rabs (key y0) <= 1 -> (70 <= maxit)%nat ->
  exists rf, rootfinder_new (mkSolverParameters 2 (ndec 1 1000000) maxit NewtonRaphson true) [x0; y0]
    (jac_iteratives64 2) (all_abs 2) = Ret rf /\
  exists rf' s', solve (model_from_function_and_jacobian stretched stretched_jac) rf (user_model_new 2) = Ret (rf', s', Ok tt) /\
    (rf_iter rf' <= 70)%nat.
Proof.
  intros x0 y0 maxit Fx Fy Ax Ay HM.
  destruct (rootfinder_new (mkSolverParameters 2 (ndec 1 1000000) maxit NewtonRaphson true) [x0; y0]
    (jac_iteratives64 2) (all_abs 2)) as [rf|pn] eqn:HN; [|discriminate].
  exists rf; split; [reflexivity|].
  pose proof u53_small as HU; pose proof u53_value as UV; pose proof tiny_pos as HT; pose proof huge_big as HH.
  assert (H10 : 1024 <= huge) by (change 1024 with (bpow radix2 10); apply bpow_le; lia).
  assert (F128 : isfin (Fz 128) = true) by (vm_compute; reflexivity).
  assert (K128 : key (Fz 128) = 128).
  { rewrite (key_sf (Fz 128) false 4503599627370496 (-45)) by (vm_compute; reflexivity); unfold F2R; cbn; lra. }
  assert (CP : computed stretched 2 (fun _ => 0) 1 stretched_slopes 128 (129 * u53)).
  { intros x (L & A); destruct x as [|a [|c [|? ?]]]; try discriminate.
    destruct (A O ltac:(lia)) as (Fa & Aa); destruct (A 1%nat ltac:(lia)) as (Fc & Ac).
    change (ent [a; c] 0) with (key a) in Aa; change (ent [a; c] 1) with (key c) in Ac.
    change (isfin a = true) in Fa; change (isfin c = true) in Fc; rewrite Rminus_0_r in Aa, Ac.
    split; [reflexivity|]; intros [|[|i]] Hi; try lia; cbn [rsum]; unfold stretched_slopes; cbn [Nat.eqb].
    - split; [exact Fa|]; split.
      + change (ent (stretched [a; c]) 0) with (key a).
        change (ent [a; c] 0) with (key a); change (ent [a; c] 1) with (key c).
        match goal with |- Rabs ?u <= _ => replace u with 0 by lra end; rewrite Rabs_R0; lra.
      + rewrite Rabs_R1, Rabs_R0; lra.
    - destruct (rounded (key (Fz 128) * key c) (nmul (Fz 128) c) (mul_fin _ _ F128 Fc)) as (G1 & E1).
      + rewrite Rabs_mult, K128, (Rabs_pos_eq 128) by lra; lra.
      + rewrite K128 in E1; split; [exact G1|]; split.
        * change (ent (stretched [a; c]) 1) with (key (nmul (Fz 128) c)).
          change (ent [a; c] 0) with (key a); change (ent [a; c] 1) with (key c).
          replace (0 * (key a - 0) + (128 * (key c - 0) + 0)) with (128 * key c) by ring.
          apply Rle_trans with (1 := E1); rewrite Rabs_mult, (Rabs_pos_eq 128) by lra.
          assert (u53 * (128 * Rabs (key c)) <= u53 * 128) by (apply Rmult_le_compat_l; lra); lra.
        * rewrite Rabs_R0, Rabs_pos_eq by lra; lra. }
  assert (RO : 0 <= roundings 2 1 (128 * (1 + 0) + 129 * u53) 1 (129 * u53) <= 1300 * u53).
  { unfold roundings; change (INR 2) with 2.
    assert (0 <= u53 * (1 * (128 * (1 + 0) + 129 * u53)) <= u53 * 129) by (split; [apply Rmult_le_pos; lra|apply Rmult_le_compat_l; lra]).
    lra. }
  assert (SH : damped_rate 0.5 = 0.75 /\ 0 <= damped_shift 2 1 0 128 (129 * u53) 1 0.5 1 <= 1400 * u53).
  { unfold damped_shift, damped_rate, damped_roundings; lra. }
  assert (CT : contracting_damped 2 (fun _ => 0) 1 0 128 (129 * u53) 1 0.5 1).
  { split; [|lra]; constructor; try lra; [intros; rewrite Rabs_R0; lra|change (INR 2) with 2; lra]. }
  destruct stretched_inverse as (H & EH & NI).
  assert (A0 : around 2 (fun _ => 0) 1 [x0; y0]).
  { split; [reflexivity|]; intros [|[|i]] Hi; try lia; unfold ent; cbn [nth]; rewrite Rminus_0_r; split; assumption. }
  assert (IV : forall x, around 2 (fun _ => 0) 1 x -> squaref 2 (stretched_jac x) /\
    exists H, lu_inverse (stretched_jac x) = Some H /\ nearly_inverse 2 H (stretched_slopes x) 1 0.5).
  { intros x A; split.
    - split; [reflexivity|]; unfold stretched_jac; intros l HL; cbn [In] in HL; destruct HL as [<-|[<-|[]]]; reflexivity.
    - exists H; split; [exact EH|apply NI]. }
  assert (PR := C98_newton stretched stretched_jac 2 (fun _ => 0) 1 stretched_slopes 128 (129 * u53) 1 0.5 1 (ndec 1 1000000) maxit
    [x0; y0] rf CP CT IV (proj1 close_tolerance) A0 HN).
  destruct PR as (rf' & s' & y & EY & _ & AY & _ & TT & PR); destruct close_tolerance as (_ & T1 & T2).
  destruct (PR 70%nat HM) as (O1 & O2); [|exists rf', s'; split; assumption].
  apply Rle_trans with (2 := T1); change (bpow radix2 (-20)) with (/ 1048576).
  set (sh := damped_shift _ _ _ _ _ _ _ _) in *; clearbody sh; destruct SH as (-> & SH).
  assert (P10 : 0 <= 0.75 ^ 10 <= 0.057) by (cbn [pow]; lra).
  assert (P70 : 0.75 ^ 70 <= 0.000000002).
  { replace 70%nat with (10 * 7)%nat by reflexivity; rewrite pow_mult.
    apply Rle_trans with (0.057 ^ 7); [apply pow_incr; exact P10|cbn [pow]; lra]. }
  replace (sh / (1 - 0.75)) with (4 * sh) by lra; lra.
Qed.
