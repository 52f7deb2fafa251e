(** C99: bounds around the root and wide step limits do not prevent the
    convergence in floating point; a relative limit freezes a variable at 0. *)
From Coq Require Import Reals Lra Lia ZArith List Bool.
From Flocq Require Import Core BinarySingleNaN.
From Verif Require Import Base Num F64 Linalg Residuals Iteratives UserModel Jacobian Solver
  Trace F64Facts F64Arith LimitFacts RNum ExactFacts LocalFacts PropsNorm PropsAccuracy PropsFD PropsStep PropsSlope
  Tactics FlowFacts FlagFacts Fresh Reach StepFacts PropsLimits PropsRun PropsBounds
  Samples FloatRun PropsFloat DampedFloat PropsSettle.
Import ListNotations.
Open Scope R_scope.

(** The bounds of [p] contain [x], and no limit on the steps from points within
    [R] of [x] is [T] or less. *)
Definition wide (p : iterative_params f64) (x T R : R) : Prop :=
  isnan (min_value p) = false /\ isnan (max_value p) = false /\ isnan (max_step_abs p) = false /\
  key (min_value p) <= x <= key (max_value p) /\
  forall v b : f64, isfin v = true -> Rabs (key v - x) <= R -> is_limit p v b -> T < key b.

(** Limits which take steps of up to [T] from points within [R] of [x] no
    further from [x] than without limits. *)
Definition harmless (it : iterative f64) (x T R : R) : Prop :=
  forall v s : f64, isfin v = true -> Rabs (key v - x) <= R -> isfin s = true -> Rabs (key s) <= T -> isfin (nadd v s) = true ->
  isfin (it_step_limitation it v s) = true /\ Rabs (key (it_step_limitation it v s) - x) <= Rabs (key (nadd v s) - x).

Lemma clamp_between (a mn mx x : R) : mn <= x <= mx -> Rabs (Rmin (Rmax a mn) mx - x) <= Rabs (a - x).
Proof.
  intros Hx; unfold Rmin, Rmax; destruct (Rle_dec a mn); destruct (Rle_dec _ mx); try lra;
    unfold Rabs; repeat destruct Rcase_abs; lra.
Qed.

Lemma wide_harmless p x T R : wide p x T R -> Rabs x <= huge -> harmless (iterative_of_params p) x T R.
Proof.
  intros (N1 & N2 & N3 & BX & LM) HX v s Fv Dv Fs Ts Fa; cbn [it_step_limitation iterative_of_params].
  assert (Ns : isnan s = false) by (apply fin_not_nan, Fs).
  assert (Nas : isnan (nabs s) = false) by (rewrite abs_nan; exact Ns).
  assert (Hb : forall b, is_limit p v b -> nltb (nabs s) b = true).
  { intros b Hb; assert (Nb : isnan b = false) by (destruct Hb as [->|[_ Nb]]; assumption).
    apply ltb_key; [exact Nas|exact Nb|]; rewrite key_abs; specialize (LM v b Fv Dv Hb); lra. }
  unfold step_limitation.
  assert (Hmin : nmin (nmin (max_step_abs p) (nmul (max_step_rel p) (nabs v))) (nabs s) = nabs s).
  { assert (Hm : nltb (nabs s) (nmin (max_step_abs p) (nmul (max_step_rel p) (nabs v))) = true).
    { destruct (isnan (nmul (max_step_rel p) (nabs v))) eqn:E.
      - rewrite nmin_nan_r by auto; apply Hb; left; reflexivity.
      - destruct (nmin_key _ _ N3 E) as (_ & _ & [->| ->]); apply Hb; [left|right]; auto. }
    assert (Hm' := Hm); apply ltb_true_inv in Hm' as (_ & Nm & _).
    unfold nmin at 1; rewrite !nisnan_f64, Nm, Nas, Hm; reflexivity. }
  rewrite Hmin, abs_mul_signum by exact Ns.
  assert (Na : isnan (nadd v s) = false) by (apply fin_not_nan, Fa).
  assert (KC := clamp_key (nadd v s) (min_value p) (max_value p) Na N1 N2).
  assert (BT := clamp_between (key (nadd v s)) _ _ x BX); rewrite <- KC in BT.
  split; [|exact BT].
  destruct (clamp_box (nadd v s) (min_value p) (max_value p) N1 N2 ltac:(lra)) as (NC & _).
  apply key_finite; [exact NC|].
  assert (KA : Rabs (key (nadd v s)) < big) by (apply Rabs_lt; apply key_bound in Fa; unfold big; lra).
  pose proof huge_big as HH; rewrite KC.
  assert (HX' : Rabs x < big) by lra.
  apply Rabs_lt_inv in KA; apply Rabs_lt_inv in HX'; apply Rabs_lt.
  unfold Rmin, Rmax; destruct (Rle_dec (key (nadd v s)) (key (min_value p))); destruct (Rle_dec _ (key (max_value p))); lra.
Qed.

Lemma limited_steps : forall its (z s : vec f64), length its = length z -> length s = length z ->
  exists y, step_limitations its z s = Ret y /\ length y = length z /\
    forall i it, nth_error its i = Some it -> nth i y n0 = it_step_limitation it (nth i z n0) (nth i s n0).
Proof.
  induction its as [|it its IH]; intros [|a z] [|c s] L1 L2; try discriminate.
  - exists []; split; [reflexivity|]; split; [reflexivity|]; intros [|i] it H; discriminate.
  - cbn [step_limitations]; destruct (IH z s) as (y & E & L & Q); [injection L1; auto|injection L2; auto|].
    rewrite E; cbn [bind]; eexists; split; [reflexivity|]; split; [cbn [length]; rewrite L; reflexivity|].
    intros [|i] it' H; cbn [nth_error nth] in *; [injection H as <-; reflexivity|apply Q, H].
Qed.

(** ** The runs, damped or not *)
Definition run_factor (damped : bool) (q : R) : R := if damped then damped_rate q else q.
Definition run_shift (damped : bool) (n : nat) (r delta sigma e b q B : R) : R :=
  if damped then damped_shift n r delta sigma e b q B
  else q * delta + roundings n b (sigma * (r + delta) + e) B e.
Definition contracting_run (damped : bool) (n : nat) (xs : nat -> R) (r delta sigma e b q B : R) : Prop :=
  if damped then contracting_damped n xs r delta sigma e b q B else contracting n xs r delta sigma e b q B.

Section Run.
Context (damped : bool) (func : vec f64 -> vec f64) (n : nat) (xs : nat -> R) (r delta : R) (S : vec f64 -> nat -> nat -> R)
  (sigma e b q B : R) (its : list (iterative f64)).
Let phi := sigma * (r + delta) + e.
Let f := run_factor damped q.
Let a := run_shift damped n r delta sigma e b q B.
Context (CP : computed func n xs (r + delta) S sigma e) (LI : length its = n)
  (HI : forall i it, nth_error its i = Some it -> harmless it (xs i) (2 * (r + delta)) (r + delta))
  (CR : contracting_run damped n xs r delta sigma e b q B).

Lemma run_contracting : contracting n xs r delta sigma e b q B.
Proof using CR. destruct damped; [exact (cd_contracting _ _ _ _ _ _ _ _ _ CR)|exact CR]. Qed.

Lemma run_numbers : 0 <= a /\ 0 <= f < 1 /\ f * r + a <= r.
Proof using CR.
  pose proof run_contracting as CT; unfold a, f, run_shift, run_factor; destruct damped.
  - destruct CR as [_ RO]; destruct (a_pos n xs r delta sigma e b q B CT) as (PA & PF & PD).
    split; [exact PA|]; split; [exact PF|exact RO].
  - destruct CT as [T1 T2 T3 T4 T5 T6 T7 T8 T9 T10 T11].
    assert (RP := eps_pos n r delta sigma e b B T1 T2 T3 T4 T6 T8).
    assert (0 <= q * delta) by (apply Rmult_le_pos; lra); split; [lra|]; split; lra.
Qed.

Definition limited_next (H : mat f64) (z : vec f64) : vec f64 :=
  match step_limitations its z (mat_vec (mat_neg H) (func z)) with Ret y => y | Panic _ => z end.

Lemma limited_step z H d : around n xs (d + delta) z -> 0 <= d <= r -> nearly_inverse n H (S z) b q ->
  moves func n its H z (limited_next H z) /\
  around n xs (q * (d + delta) + roundings n b phi B e) (limited_next H z).
Proof using CP LI HI CR.
  intros A Hd NI; destruct run_contracting as [T1 T2 T3 T4 T5 T6 T7 T8 T9 T10 T11].
  assert (AR : around n xs (r + delta) z) by (apply around_le with (1 := A); lra).
  assert (FR := jac_free n).
  destruct (float_step func n xs (r + delta) S sigma e b q B (jac_iteratives64 n) CP (proj1 FR) (proj2 FR) ltac:(lra) T3
    ltac:(lra) T6 T7 T8 T9 T10 ltac:(lra) z H (d + delta) A ltac:(lra) NI) as (_ & _ & AY).
  destruct (raw_step func n xs (r + delta) S sigma e b q CP ltac:(lra) T3 T6 T9 T10 z H (d + delta) A ltac:(lra) NI)
    as (LS & SI).
  assert (Lz := proj1 A).
  destruct (limited_steps its z (mat_vec (mat_neg H) (func z))) as (y & EY & LY & QY);
    [transitivity n; [exact LI|symmetry; exact Lz]|transitivity n; [exact LS|symmetry; exact Lz]|].
  assert (EN : limited_next H z = y) by (unfold limited_next; rewrite EY; reflexivity); rewrite EN.
  split; [split; [apply (CP z AR)|split; [apply NI|exact EY]]|].
  split; [rewrite LY; exact Lz|]; intros i Hi.
  assert (IT : exists it, nth_error its i = Some it).
  { destruct (nth_error its i) as [it|] eqn:EI; [exists it; reflexivity|].
    apply nth_error_None in EI; lia. }
  destruct IT as (it & EI); unfold ent; rewrite (QY i it EI).
  destruct (AY i Hi) as (F1 & D1); destruct (SI i Hi) as (F2 & D2); destruct (proj2 A i Hi) as (F3 & D3).
  unfold ent in D1, D2, D3; unfold float_next in F1, D1.
  rewrite nth_map2 in F1 by (rewrite Lz, ?LS; auto); rewrite nth_map2 in D1 by (rewrite Lz, ?LS; auto).
  set (zi := nth i z n0) in *; set (si := nth i (mat_vec (mat_neg H) (func z)) n0) in *.
  destruct (HI i it EI zi si F3 ltac:(lra) F2) as (G1 & G2); [|exact F1|split; [exact G1|eapply Rle_trans; [exact G2|exact D1]]].
  pose proof u53_small as HU; pose proof tiny_pos as HT.
  assert (UB : 0 <= u53 * B) by (apply Rmult_le_pos; lra).
  assert (QD : q * (d + delta) <= q * (r + delta)) by (apply Rmult_le_compat_l; lra).
  unfold roundings in T11.
  replace (key si) with ((key zi + key si - xs i) - (key zi - xs i)) by ring.
  unfold Rminus at 1; eapply Rle_trans; [apply Rabs_triang|]; rewrite Rabs_Ropp; lra.
Qed.

(** Where an iteration ends. *)
Definition ends (z y : vec f64) : vec f64 := if damped then kept_point func z y else y.

Lemma ends_either : (damped = true /\ forall z y, ends z y = kept_point func z y) \/ (damped = false /\ forall z y, ends z y = y).
Proof using. unfold ends; case damped; [left|right]; split; reflexivity. Qed.

Lemma ends_around z y d : around n xs (d + delta) z -> around n xs (q * (d + delta) + roundings n b phi B e) y ->
  0 <= d <= r -> around n xs (f * d + a) (ends z y).
Proof using CR.
  intros AZ AY Hd; pose proof run_contracting as CT; unfold ends, f, a, run_factor, run_shift; destruct damped.
  - exact (kept_around func n xs r delta sigma e b q B CT z y d AZ AY Hd).
  - apply around_le with (1 := AY); unfold phi; lra.
Qed.

Lemma short_values d w : 0 <= d <= r -> around n xs (q * (d + delta) + roundings n b phi B e) w ->
  length w = n /\ length (func w) = n.
Proof using CP CR.
  intros Hd A; destruct run_contracting as [T1 T2 T3 T4 T5 T6 T7 T8 T9 T10 T11].
  split; [apply A|]; apply CP, around_le with (1 := A).
  assert (q * (d + delta) <= q * (r + delta)) by (apply Rmult_le_compat_l; lra).
  change (q * (r + delta) + roundings n b phi B e <= r) in T11; lra.
Qed.

Lemma newton_within provided get_jac (K : vec f64 -> mat f64) (Z : vec f64 -> vec f64) (tol : f64) (maxit : nat) (x0 : vec f64) (rf : rootfinder f64) :
  isnan tol = false ->
  (forall x, around n xs r x -> displaced n delta x (Z x) /\ source func n provided get_jac its x (K x) (Z x) /\
     exists H, lu_inverse (K x) = Some H /\ nearly_inverse n H (S (Z x)) b q) ->
  around n xs r x0 ->
  rootfinder_new (mkSolverParameters n tol maxit NewtonRaphson damped) x0 its (all_abs n) = Ret rf ->
  promised_within func n xs r sigma e f a tol maxit
    (solve (mkModel um_problem_size um_set_iteratives um_inputs (um_evaluate func) um_get_residuals provided get_jac
      default_get_memory default_set_memory show_infallible show_infallible) rf (user_model_new n)).
Proof using CP LI HI CR.
  intros NT HS A0 HN; set (p := mkSolverParameters n tol maxit NewtonRaphson damped) in *.
  assert (SU : set_up n p its rf /\ rf_iter rf = O /\ rf_initial_guess rf = x0).
  { unfold rootfinder_new in HN; destruct negb; [discriminate|]; destruct negb; [discriminate|].
    destruct negb; [discriminate|]; injection HN as <-; repeat split. }
  destruct SU as (SU & I0 & G0); destruct run_numbers as (PA & PF & INa).
  destruct run_contracting as [T1 T2 T3 T4 T5 T6 T7 T8 T9 T10 T11].
  set (next := fun x => match lu_inverse (K x) with
    | Some H => ends (Z x) (limited_next H (Z x)) | None => x end).
  assert (ST : forall x d, around n xs d x -> 0 <= d <= r ->
    around n xs (f * d + a) (next x) /\
    exists A z H y, source func n provided get_jac its x A z /\ lu_inverse A = Some H /\ moves func n its H z y /\
      length z = n /\ length y = n /\ length (func y) = n /\ next x = ends z y).
  { intros x d A Hd; destruct (HS x ltac:(apply around_le with d; [exact A|lra])) as (D1 & D2 & H & D3 & D4).
    assert (AZ := displaced_around n xs delta x (Z x) d A D1).
    destruct (limited_step (Z x) H d AZ Hd D4) as (M1 & M2); destruct (short_values d _ Hd M2) as (Q1 & Q2).
    unfold next; rewrite D3; split; [apply ends_around; assumption|].
    exists (K x), (Z x), H, (limited_next H (Z x)).
    split; [exact D2|]; split; [exact D3|]; split; [exact M1|]; split; [apply AZ|]; split; [exact Q1|].
    split; [exact Q2|reflexivity]. }
  assert (PL : forall x, around n xs r x -> length (func x) = n)
    by (intros x A; apply CP; apply around_le with r; [exact A|lra]).
  assert (FN : exists rf', finished func n provided get_jac p (around n xs r) rf
    (fst (float_run func next tol maxit x0)) (snd (float_run func next tol maxit x0)) rf').
  { rewrite <- G0 in A0 |- *.
    assert (HX : forall x, around n xs r x -> exists A z H y, source func n provided get_jac its x A z /\
      lu_inverse A = Some H /\ moves func n its H z y /\ length z = n /\ length y = n /\ length (func y) = n /\
      next x = ends z y /\ around n xs r (next x)).
    { intros x A; destruct (ST x r A ltac:(lra)) as (N1 & A1 & z & H & y & N2 & N3 & N4 & N5 & N6 & N7 & N8).
      exists A1, z, H, y; repeat (split; [assumption|]); apply around_le with (1 := N1); exact INa. }
    destruct (ends_either) as [[DE EE]|[DE EE]].
    - apply (damped_newton_solve func n provided get_jac p its DE (around n xs r) PL next rf eq_refl SU I0 A0).
      intros x A; destruct (HX x A) as (A1 & z & H & y & N2 & N3 & N4 & N5 & N6 & N7 & N8 & N9).
      exists A1, z, H, y; rewrite EE in N8; auto 10.
    - apply (float_newton_solve func n provided get_jac p its DE (or_introl eq_refl) (around n xs r) PL next rf
        eq_refl SU I0 A0).
      intros x A _; destruct (HX x A) as (A1 & z & H & y & N2 & N3 & N4 & N5 & N6 & N7 & N8 & N9).
      rewrite EE in N8; exists A1, z, H; split; [exact N2|]; split; [exact N3|]; split; [rewrite N8; exact N4|exact N9]. }
  destruct FN as (rf' & FN).
  assert (RR := rate func n xs r (r + delta) sigma e f a S CP ltac:(lra) T3 PF T6 PA INa next tol NT
    ltac:(intros x d A Hd; apply (ST x d A Hd)) maxit x0 r A0 ltac:(lra)).
  destruct (float_run func next tol maxit x0) as [k y]; cbn [fst snd] in FN.
  exact (promise_of_rate func n xs r (r + delta) sigma e f a S CP ltac:(lra) T3 PF T6 PA INa provided get_jac p rf rf' k y _ NT FN RR).
Qed.

Lemma stationary_within provided get_jac (K : mat f64) (z : vec f64) (H : mat f64) (tol : f64) (maxit : nat) (x0 : vec f64) (rf : rootfinder f64) :
  isnan tol = false -> displaced n delta x0 z -> source func n provided get_jac its x0 K z ->
  lu_inverse K = Some H -> (forall x, around n xs (r + delta) x -> nearly_inverse n H (S x) b q) ->
  around n xs r x0 ->
  rootfinder_new (mkSolverParameters n tol maxit (QuasiNewton StationaryNewton) damped) x0 its (all_abs n) = Ret rf ->
  promised_within func n xs r sigma e f a tol maxit
    (solve (mkModel um_problem_size um_set_iteratives um_inputs (um_evaluate func) um_get_residuals provided get_jac
      default_get_memory default_set_memory show_infallible show_infallible) rf (user_model_new n)).
Proof using CP LI HI CR.
  intros NT DZ SR EH NI A0 HN; set (p := mkSolverParameters n tol maxit (QuasiNewton StationaryNewton) damped) in *.
  assert (SU : set_up n p its rf /\ rf_iter rf = O /\ rf_initial_guess rf = x0 /\
    jm_compute_at_next (rf_jacobian rf) = true).
  { unfold rootfinder_new in HN; destruct negb; [discriminate|]; destruct negb; [discriminate|].
    destruct negb; [discriminate|]; injection HN as <-; repeat split. }
  destruct SU as (SU & I0 & G0 & C0); destruct run_numbers as (PA & PF & INa).
  destruct run_contracting as [T1 T2 T3 T4 T5 T6 T7 T8 T9 T10 T11].
  set (next := fun x => ends x (limited_next H x)).
  assert (ST : forall x d, around n xs d x -> 0 <= d <= r ->
    around n xs (f * d + a) (next x) /\
    exists y, moves func n its H x y /\ length x = n /\ length y = n /\ length (func y) = n /\ next x = ends x y).
  { intros x d A Hd; assert (AX : around n xs (d + delta) x) by (apply around_le with d; [exact A|lra]).
    destruct (limited_step x H d AX Hd ltac:(apply NI, around_le with d; [exact A|lra])) as (M1 & M2).
    split; [apply ends_around; assumption|].
    exists (limited_next H x); destruct (short_values d _ Hd M2) as (Q1 & Q2).
    split; [exact M1|]; split; [apply AX|]; split; [exact Q1|]; split; [exact Q2|reflexivity]. }
  assert (AZ := displaced_around n xs delta x0 z r A0 DZ).
  destruct (limited_step z H r AZ ltac:(lra) ltac:(apply NI; exact AZ)) as (M1 & M2).
  set (y := limited_next H z) in *; destruct (short_values r y ltac:(lra) M2) as (Q1 & Q2).
  assert (AY : around n xs (f * r + a) (ends z y)) by (apply ends_around; [exact AZ|exact M2|lra]).
  assert (PL : forall x, around n xs r x -> length (func x) = n)
    by (intros x A; apply CP; apply around_le with r; [exact A|lra]).
  assert (FN : exists k w rf', finished func n provided get_jac p (around n xs r) rf k w rf' /\
    (k, w) = match maxit with
      | O => (O, x0)
      | Datatypes.S budget => if ngtb (float_error func x0) tol
          then let '(k, w) := float_run func next tol budget (ends z y) in (Datatypes.S k, w)
          else (O, x0)
      end).
  { assert (HX : forall x, around n xs r x -> exists y, moves func n its H x y /\ length x = n /\ length y = n /\
      length (func y) = n /\ next x = ends x y /\ around n xs r (next x)).
    { intros x A; destruct (ST x r A ltac:(lra)) as (N1 & v & N2 & N3 & N4 & N5 & N6).
      exists v; repeat (split; [assumption|]); apply around_le with (1 := N1); exact INa. }
    assert (AE : around n xs r (ends z y)) by (apply around_le with (1 := AY); exact INa).
    rewrite <- G0 in A0, SR |- *; clearbody y.
    destruct (ends_either) as [[DE EE]|[DE EE]]; rewrite EE in AE |- *.
    - apply (damped_stationary_solve func n provided get_jac p its DE (around n xs r) PL K z H y rf next eq_refl SU I0 C0
        A0 SR EH M1 (proj1 AZ) Q1 Q2 AE).
      intros x A; destruct (HX x A) as (v & N2 & N3 & N4 & N5 & N6 & N7); rewrite EE in N6; exists v; auto 10.
    - apply (float_stationary_solve func n provided get_jac p its DE (or_intror eq_refl) (around n xs r) PL (fun _ => y) K z H rf
        eq_refl SU I0 C0 A0 SR EH (fun _ => conj M1 AE) next).
      intros x A _; destruct (HX x A) as (v & N2 & N3 & N4 & N5 & N6 & N7); rewrite EE in N6.
      split; [rewrite N6; exact N2|exact N7]. }
  destruct FN as (k & w & rf' & FN & RUN).
  assert (RR := rate func n xs r (r + delta) sigma e f a S CP ltac:(lra) T3 PF T6 PA INa next tol NT
    ltac:(intros x d A Hd; apply (ST x d A Hd))).
  destruct (E_rate f a PF PA) as (HE & HE0).
  assert (PS := passed func n xs r (r + delta) sigma e S CP ltac:(lra) T3 T6).
  assert (SE : reached func n xs r sigma e f a tol maxit k w).
  { unfold reached.
    destruct maxit as [|budget].
    - injection RUN as -> ->; cbn [pow].
      split; [lia|]; split; [exact A0|]; split; [apply around_le with r; [exact A0|lra]|]; split; [reflexivity|].
      intros m Hm HT; replace m with O in HT by lia; cbn [pow] in HT; split; [lia|].
      apply (PS x0 r tol A0 ltac:(lra) NT); lra.
    - destruct (ngtb (float_error func x0) tol) eqn:T.
      + assert (QD : 0 <= f * r) by (apply Rmult_le_pos; lra).
        specialize (RR budget (ends z y) (f * r + a) AY ltac:(lra)).
        assert (SP : forall m, f ^ m * (f * r + a) + (1 - f ^ m) * (a / (1 - f))
          = f ^ Datatypes.S m * r + (1 - f ^ Datatypes.S m) * (a / (1 - f))).
        { intros m; cbn [pow]; replace (f * r + a) with (f * r + a / (1 - f) * (1 - f)) by lra; ring. }
        destruct (float_run func next tol budget (ends z y)) as [k1 y1].
        injection RUN as -> ->; destruct RR as (J1 & J2 & J3 & J4 & J5).
        split; [lia|]; split; [exact J2|]; split; [rewrite <- SP; exact J3|].
        split; [intros Q; rewrite (J4 Q); reflexivity|].
        intros [|m] Hm HT.
        * exfalso; cbn [pow] in HT; assert (Q := PS x0 r tol A0 ltac:(lra) NT ltac:(lra)).
          rewrite T in Q; discriminate.
        * rewrite <- SP in HT; destruct (J5 m ltac:(lia) HT) as (L1 & L2); split; [lia|exact L2].
      + injection RUN as -> ->; cbn [pow].
        split; [lia|]; split; [exact A0|]; split; [apply around_le with r; [exact A0|lra]|]; split; [congruence|].
        intros m Hm HT; split; [lia|exact T]. }
  exact (promise_of_rate func n xs r (r + delta) sigma e f a S CP ltac:(lra) T3 PF T6 PA INa provided get_jac p rf rf' k w _ NT FN SE).
Qed.
End Run.

(** ** The statements *)

(** [ps] are the limits of the variables, [r + delta] the distance around the
    root which the run explores: no step is longer than [2 * (r + delta)]. *)
Definition room (ps : list (iterative_params f64)) (xs : nat -> R) (r delta : R) : Prop :=
  forall i p, nth_error ps i = Some p -> wide p (xs i) (2 * (r + delta)) (r + delta).

Lemma room_harmless damped n xs r delta sigma e b q B ps i it p :
  contracting_run damped n xs r delta sigma e b q B -> length ps = n -> room ps xs r delta ->
  nth_error ps i = Some p -> it_step_limitation it = step_limitation p ->
  harmless it (xs i) (2 * (r + delta)) (r + delta).
Proof.
  intros CR LP RM EP EI; assert (CT := run_contracting _ _ _ _ _ _ _ _ _ _ CR).
  assert (Hi : (i < n)%nat) by (rewrite <- LP; apply nth_error_Some; rewrite EP; discriminate).
  assert (HB := ct_points _ _ _ _ _ _ _ _ _ CT i Hi); assert (HG := ct_size _ _ _ _ _ _ _ _ _ CT).
  assert (W := wide_harmless p (xs i) _ _ (RM i p EP)).
  pose proof (ct_radius _ _ _ _ _ _ _ _ _ CT); pose proof (ct_delta _ _ _ _ _ _ _ _ _ CT).
  intros v s; rewrite EI; apply W; lra.
Qed.

Theorem C99_newton : forall damped func jac n xs r S sigma e b q B ps tol maxit x0 rf,
  computed func n xs r S sigma e -> contracting_run damped n xs r 0 sigma e b q B ->
  length ps = n -> room ps xs r 0 ->
  (forall x, around n xs r x -> squaref n (jac x) /\
     exists H, lu_inverse (jac x) = Some H /\ nearly_inverse n H (S x) b q) ->
  isnan tol = false -> around n xs r x0 ->
  rootfinder_new (mkSolverParameters n tol maxit NewtonRaphson damped) x0 (map iterative_of_params ps) (all_abs n) = Ret rf ->
  promised_within func n xs r sigma e (run_factor damped q) (run_shift damped n r 0 sigma e b q B) tol maxit
    (solve (model_from_function_and_jacobian func jac) rf (user_model_new n)).
Proof.
  intros damped func jac n xs r S sigma e b q B ps tol maxit x0 rf CP CR LP RM HJ NT A0 HN.
  rewrite <- (Rplus_0_r r) in CP at 1.
  refine (newton_within damped func n xs r 0 S sigma e b q B (map iterative_of_params ps) CP _ _ CR
    (fun _ => true) (um_get_jacobian jac) jac (fun x => x) tol maxit x0 rf NT _ A0 HN).
  - rewrite map_length; exact LP.
  - intros i it EI; rewrite nth_error_map in EI; destruct (nth_error ps i) as [p|] eqn:EP; [|discriminate].
    injection EI as <-; apply (room_harmless damped n xs r 0 sigma e b q B ps i (iterative_of_params p) p CR LP RM EP eq_refl).
  - intros x A; destruct (HJ x A) as (SQ & H & J1 & J2); split.
    + split; [apply A|]; intros i Hi; split; [apply A, Hi|].
      unfold Rminus; rewrite Rplus_opp_r, Rabs_R0; lra.
    + split; [|exists H; split; assumption].
      apply analytic_source; [apply CP; rewrite Rplus_0_r; exact A|exact SQ].
Qed.
Print Assumptions C99_newton.

Theorem C99_stationary : forall damped func jac n xs r S sigma e b q B H ps tol maxit x0 rf,
  computed func n xs r S sigma e -> contracting_run damped n xs r 0 sigma e b q B ->
  length ps = n -> room ps xs r 0 ->
  squaref n (jac x0) -> lu_inverse (jac x0) = Some H ->
  (forall x, around n xs r x -> nearly_inverse n H (S x) b q) ->
  isnan tol = false -> around n xs r x0 ->
  rootfinder_new (mkSolverParameters n tol maxit (QuasiNewton StationaryNewton) damped) x0
    (map iterative_of_params ps) (all_abs n) = Ret rf ->
  promised_within func n xs r sigma e (run_factor damped q) (run_shift damped n r 0 sigma e b q B) tol maxit
    (solve (model_from_function_and_jacobian func jac) rf (user_model_new n)).
Proof.
  intros damped func jac n xs r S sigma e b q B H ps tol maxit x0 rf CP CR LP RM SQ EH HJ NT A0 HN.
  rewrite <- (Rplus_0_r r) in CP at 1.
  refine (stationary_within damped func n xs r 0 S sigma e b q B (map iterative_of_params ps) CP _ _ CR
    (fun _ => true) (um_get_jacobian jac) (jac x0) x0 H tol maxit x0 rf NT _ _ EH _ A0 HN).
  - rewrite map_length; exact LP.
  - intros i it EI; rewrite nth_error_map in EI; destruct (nth_error ps i) as [p|] eqn:EP; [|discriminate].
    injection EI as <-; apply (room_harmless damped n xs r 0 sigma e b q B ps i (iterative_of_params p) p CR LP RM EP eq_refl).
  - split; [apply A0|]; intros i Hi; split; [apply A0, Hi|].
    unfold Rminus; rewrite Rplus_opp_r, Rabs_R0; lra.
  - apply analytic_source; [apply CP; rewrite Rplus_0_r; exact A0|exact SQ].
  - intros x A; apply HJ; rewrite <- (Rplus_0_r r); exact A.
Qed.
Print Assumptions C99_stationary.

Theorem C99_finite_differences : forall damped func n xs r delta S sigma e b q B ps step tol maxit x0 rf,
  (1 <= n)%nat -> computed func n xs (r + delta) S sigma e -> contracting_run damped n xs r delta sigma e b q B ->
  length ps = n -> room (map fd_params ps) xs r delta ->
  (forall x, around n xs r x -> small_shifts n (map iterative_of_params_fd ps) delta x (step x) /\
     exists H, lu_inverse (fd_float func n x (step x)) = Some H /\
       nearly_inverse n H (S (shift x (n - 1) (nth (n - 1) (step x) n0))) b q) ->
  isnan tol = false -> around n xs r x0 ->
  rootfinder_new (mkSolverParameters n tol maxit NewtonRaphson damped) x0 (map iterative_of_params_fd ps) (all_abs n) = Ret rf ->
  promised_within func n xs r sigma e (run_factor damped q) (run_shift damped n r delta sigma e b q B) tol maxit
    (solve (model_from_function func) rf (user_model_new n)).
Proof.
  intros damped func n xs r delta S sigma e b q B ps step tol maxit x0 rf Pn CP CR LP RM HJ NT A0 HN.
  assert (Pd := ct_delta _ _ _ _ _ _ _ _ _ (run_contracting _ _ _ _ _ _ _ _ _ _ CR)).
  refine (newton_within damped func n xs r delta S sigma e b q B (map iterative_of_params_fd ps) CP _ _ CR
    default_jacobian_provided (default_get_jacobian um_inputs) (fun x => fd_float func n x (step x))
    (fun x => shift x (n - 1) (nth (n - 1) (step x) n0)) tol maxit x0 rf NT _ A0 HN).
  - rewrite map_length; exact LP.
  - intros i it EI; rewrite nth_error_map in EI; destruct (nth_error ps i) as [p|] eqn:EP; [|discriminate].
    injection EI as <-; apply (room_harmless damped n xs r delta sigma e b q B (map fd_params ps) i _ (fd_params p) CR);
      [rewrite map_length; exact LP|exact RM|rewrite nth_error_map, EP; reflexivity|reflexivity].
  - intros x A; destruct (HJ x A) as (SD & H & J1 & J2).
    split; [apply (shift_around n xs r (map iterative_of_params_fd ps) delta x (step x)); auto; lia|].
    split; [|exists H; split; assumption].
    apply fd_source; [exact Pn|apply A|apply SD|apply SD| | |reflexivity].
    + apply CP, around_le with r; [exact A|lra].
    + intros j Hj; apply CP, (shift_around n xs r (map iterative_of_params_fd ps) delta x (step x)); auto.
Qed.
Print Assumptions C99_finite_differences.

Theorem C99_stationary_differences : forall damped func n xs r delta S sigma e b q B ps d H tol maxit x0 rf,
  (1 <= n)%nat -> computed func n xs (r + delta) S sigma e -> contracting_run damped n xs r delta sigma e b q B ->
  length ps = n -> room (map fd_params ps) xs r delta -> small_shifts n (map iterative_of_params_fd ps) delta x0 d ->
  lu_inverse (fd_float func n x0 d) = Some H ->
  (forall x, around n xs (r + delta) x -> nearly_inverse n H (S x) b q) ->
  isnan tol = false -> around n xs r x0 ->
  rootfinder_new (mkSolverParameters n tol maxit (QuasiNewton StationaryNewton) damped) x0
    (map iterative_of_params_fd ps) (all_abs n) = Ret rf ->
  promised_within func n xs r sigma e (run_factor damped q) (run_shift damped n r delta sigma e b q B) tol maxit
    (solve (model_from_function func) rf (user_model_new n)).
Proof.
  intros damped func n xs r delta S sigma e b q B ps d H tol maxit x0 rf Pn CP CR LP RM SD EH HJ NT A0 HN.
  assert (Pd := ct_delta _ _ _ _ _ _ _ _ _ (run_contracting _ _ _ _ _ _ _ _ _ _ CR)).
  refine (stationary_within damped func n xs r delta S sigma e b q B (map iterative_of_params_fd ps) CP _ _ CR
    default_jacobian_provided (default_get_jacobian um_inputs) (fd_float func n x0 d)
    (shift x0 (n - 1) (nth (n - 1) d n0)) H tol maxit x0 rf NT _ _ EH HJ A0 HN).
  - rewrite map_length; exact LP.
  - intros i it EI; rewrite nth_error_map in EI; destruct (nth_error ps i) as [p|] eqn:EP; [|discriminate].
    injection EI as <-; apply (room_harmless damped n xs r delta sigma e b q B (map fd_params ps) i _ (fd_params p) CR);
      [rewrite map_length; exact LP|exact RM|rewrite nth_error_map, EP; reflexivity|reflexivity].
  - apply (shift_around n xs r (map iterative_of_params_fd ps) delta x0 d); auto; lia.
  - apply fd_source; [exact Pn|apply A0|apply SD|apply SD| | |reflexivity].
    + apply CP, around_le with r; [exact A0|lra].
    + intros j Hj; apply CP, (shift_around n xs r (map iterative_of_params_fd ps) delta x0 d); auto.
Qed.
Print Assumptions C99_stationary_differences.

(** ** Variables at 0 *)

Lemma zero_fin (v : f64) : neqb v n0 = true -> isfin v = true /\ key v = 0.
Proof. destruct v as [s|s| |s m x Hx]; cbn; try discriminate; try (destruct s; discriminate); intros _; split; reflexivity. Qed.

Lemma zero_key (v : f64) : isnan v = false -> key v = 0 -> neqb v n0 = true.
Proof. intros N K; apply eqb_key; [exact N|reflexivity|rewrite K; reflexivity]. Qed.

Lemma sat_0 : sat (rnd 0) = 0.
Proof. rewrite rnd_0; apply sat_id; rewrite Rabs_R0; apply bpow_ge_0. Qed.

(** A finite relative limit holds a variable at 0, whatever the step. *)
Theorem C99_frozen : forall (p : iterative_params f64) (v raw : f64),
  accepted p -> isfin (max_step_rel p) = true -> nleb (min_value p) n0 = true -> nleb n0 (max_value p) = true ->
  neqb v n0 = true -> isnan raw = false -> neqb (step_limitation p v raw) n0 = true.
Proof.
  intros p v raw A FR Hlo Hhi Hv Nr; destruct (zero_fin v Hv) as (Fv & Kv).
  destruct (accepted_key p A) as (Pa & _ & _); destruct A as (Na & _ & N1 & N2 & _).
  apply leb_key in Hlo; [|exact N1|reflexivity]; apply leb_key in Hhi; [|reflexivity|exact N2].
  change (key n0) with 0 in Hlo, Hhi; unfold step_limitation.
  assert (Fav : isfin (nabs v) = true) by (destruct v; try discriminate; reflexivity).
  destruct (mul_fin (max_step_rel p) (nabs v) FR Fav) as (Nm & Km).
  rewrite key_abs, Kv, Rabs_R0, Rmult_0_r, sat_0 in Km; set (m := nmul (max_step_rel p) (nabs v)) in *; clearbody m.
  destruct (nmin_key (max_step_abs p) m Na Nm) as (NM & KM & _); rewrite Km, Rmin_right in KM by lra.
  set (mm := nmin (max_step_abs p) m) in *; clearbody mm.
  assert (Nar : isnan (nabs raw) = false) by (rewrite abs_nan; exact Nr).
  destruct (nmin_key mm (nabs raw) NM Nar) as (NL & KL & _).
  rewrite KM, key_abs, Rmin_left in KL by apply Rabs_pos; set (l := nmin mm (nabs raw)) in *; clearbody l.
  assert (HP : isnan (nmul l (nsignum raw)) = false /\ key (nmul l (nsignum raw)) = 0).
  { destruct (signum_cases raw Nr) as [(-> & _)|(-> & _)].
    - rewrite mul_one by exact NL; split; assumption.
    - rewrite mul_mone by exact NL; destruct l as [s|s| |s mn x Hx]; try discriminate; cbn in KL |- *;
        (split; [reflexivity|]); try reflexivity.
      + destruct s; pose proof (bpow_gt_0 radix2 1024); lra.
      + revert KL; unfold F2R; cbn [Fnum Fexp]; pose proof (bpow_gt_0 radix2 x) as PB; intros KL.
        apply Rmult_integral in KL as [KL|KL]; [|lra]; apply eq_IZR in KL; destruct s; discriminate. }
  destruct HP as (NP & KP).
  destruct (add_zero_key v _ (fin_not_nan _ Fv) NP KP) as (NA & KA); rewrite Kv in KA.
  apply zero_key; [apply clamp_box; [exact N1|exact N2|lra]|].
  rewrite (clamp_key _ _ _ NA N1 N2), KA, Rmax_left, Rmin_left by lra; reflexivity.
Qed.
Print Assumptions C99_frozen.

Lemma frozen_at_bound (p : iterative_params f64) (v raw : f64) :
  accepted p -> isfin (max_step_rel p) = true -> neqb (min_value p) n0 = true ->
  neqb v n0 = true -> neqb (step_limitation p v raw) n0 = true.
Proof.
  intros A FR Hm Hv; destruct (zero_fin _ Hm) as (Fm & Km); destruct (accepted_key p A) as (_ & _ & Ko).
  assert (N2 : isnan (max_value p) = false) by apply A; assert (N1 : isnan (min_value p) = false) by apply A.
  destruct (isnan raw) eqn:Nr.
  - unfold step_limitation.
    assert (NN : isnan (nadd v (nmul (nmin (nmin (max_step_abs p) (nmul (max_step_rel p) (nabs v))) (nabs raw)) (nsignum raw))) = true).
    { assert (Hs : isnan (nsignum raw) = true) by (destruct raw; try discriminate; reflexivity).
      apply add_nan_r; destruct (nmin _ _); destruct (nsignum raw); try discriminate; reflexivity. }
    rewrite nmax_nan_l by exact NN; destruct (nmin_key _ _ N1 N2) as (N3 & K3 & _).
    apply zero_key; [exact N3|rewrite K3, Rmin_left, Km by lra; reflexivity].
  - apply C99_frozen; try assumption; apply leb_key; auto; change (key n0) with 0; lra.
Qed.

(** A variable which may not become negative, has a finite relative limit and
    starts from 0, is 0 at the end of every run with a jacobian from the user. *)
Theorem C99_stuck : forall (IF : Inverter f64) St EI EU (M : Model f64 St EI EU) rf s rf' s' r ps i p v,
  keeps_iteratives M -> (forall s, jacobian_provided M s = true) -> limits_of (rf_iters_params rf) ps ->
  nth_error ps i = Some p -> accepted p -> isfin (max_step_rel p) = true -> neqb (min_value p) n0 = true ->
  nth_error (rf_initial_guess rf) i = Some v -> neqb v n0 = true ->
  solve M rf s = Ret (rf', s', r) ->
  r = Ok tt \/ r = Err NonConvergenceError \/ r = Err FinalEvaluationError ->
  exists w, nth_error (get_iteratives M s') i = Some w /\ neqb w n0 = true.
Proof.
  intros IF St EI EU M rf s rf' s' r ps i p v K P L EP A FR Hm Ev Hv HS Hr.
  destruct (result_head M rf s rf' s' r HS Hr) as [me Hh].
  clear HS Hr r; revert rf' s' me Hh.
  enough (G : forall rf1 s1 me, loop_head M rf s rf1 s1 me ->
    exists w, nth_error (get_iteratives M s1) i = Some w /\ neqb w n0 = true)
    by (intros rf1 s1 me Hh; exact (G rf1 s1 me Hh)).
  intros rf1 s1 me H; induction H as [s1 r e rf1 E U _ _|rf1 s1 me rf2 s2 e H IH C I].
  - rewrite (ki_evaluate M K _ _ _ _ E); exists v; split; assumption.
  - destruct IH as (w & Ew & Zw).
    apply iteration_full in I.
    destruct I as (rf3 & s3 & g & s4 & r3 & e0 & e1 & S1 & _ & _ & E2 & _ & _ & G & _).
    pose proof (analytic_step_point M K _ _ _ _ _ (P s1) S1) as X.
    assert (Hg : exists u, nth_error g i = Some u /\ neqb u n0 = true).
    { apply loop_head_config in H; destruct H as (_ & _ & Hi & _).
      assert (S2 := S1); apply compute_step_inv in S2; destruct S2 as (Hj & S2); specialize (S2 g eq_refl).
      apply same_but_jac_fields in Hj; destruct Hj as ((_ & _ & Hi1 & _) & _); cbn in Hi1.
      unfold compute_next_from_inv_jac in S2; minv1 S2; minv1 S2; minv1 S2; minv1 S2.
      rewrite Hi1, Hi in S2; apply step_limitations_nth in S2 as (_ & S2).
      assert (EIt : exists it, nth_error (rf_iters_params rf) i = Some it /\ it_step_limitation it = step_limitation p).
      { destruct L as [->|(qs & -> & ->)].
        - exists (iterative_of_params p); rewrite nth_error_map, EP; split; reflexivity.
        - rewrite nth_error_map in EP; destruct (nth_error qs i) as [c|] eqn:EQ; [|discriminate].
          injection EP as <-; exists (iterative_of_params_fd c); rewrite nth_error_map, EQ; split; reflexivity. }
      destruct EIt as (it & EIt & EL); destruct (S2 i it EIt) as (a & c & X3 & _ & X5).
      eexists; split; [exact X5|]; rewrite EL.
      rewrite X, Ew in X3; injection X3 as <-; apply frozen_at_bound; assumption. }
    destruct Hg as (u & Eu & Zu).
    match type of G with (if ?b then _ else _) => destruct b end.
    + destruct G as (dd & t & Gd & Ge & _); rewrite X in Gd.
      rewrite (ki_evaluate M K _ _ _ _ Ge).
      assert (HL : nth_error dd i <> None).
      { intros HD; apply nth_error_None in HD; unfold damped_guess, vadd, vscale in Gd; rewrite !map_length in Gd.
        destruct (Nat.eqb _ _) eqn:EL in Gd; [|discriminate]; injection Gd as <-.
        unfold vadd_raw in HD; rewrite PropsIteration.length_map2 in HD by (rewrite !map_length; apply Nat.eqb_eq, EL).
        rewrite map_length in HD; assert (i < length (get_iteratives M s1))%nat by (apply nth_error_Some; congruence); lia. }
      destruct (nth_error dd i) as [d|] eqn:Ed; [|congruence]; exists d; split; [reflexivity|].
      assert (HZ : halvable (n0 : f64)) by (apply C39_halvable; [reflexivity|left; reflexivity]).
      assert (BZ : forall a : f64, neqb a n0 = true -> between n0 a n0).
      { intros a Za; destruct (zero_fin a Za) as (Fa & Ka); assert (Na := fin_not_nan _ Fa).
        split; apply leb_key; auto; change (key n0) with 0; lra. }
      destruct (C39_bounds_kept _ _ _ n0 n0 Gd i w u d Ew Eu Ed ltac:(repeat split; left; exact HZ) (BZ w Zw) (BZ u Zu)) as (B1 & B2).
      apply leb_true_inv in B1 as (_ & Nd & B1); apply leb_true_inv in B2 as (_ & _ & B2).
      change (key n0) with 0 in B1, B2; apply zero_key; [exact Nd|lra].
    + destruct G as [-> _]; rewrite (ki_evaluate M K _ _ _ _ E2); exists u; split; assumption.
Qed.
Print Assumptions C99_stuck.

(** ** Cases *)

(** At most 1, the value of the root, and steps of at most 3. *)
Definition capped : iterative_params f64 := mkIterativeParams (Fz 3) ninf nneginf (Fz 1).

Lemma capped_wide : wide capped 1 2 1.
Proof.
  assert (K3 : key (Fz 3 : f64) = 3).
  { rewrite (key_sf (Fz 3) false 6755399441055744 (-51)) by (vm_compute; reflexivity); unfold F2R; cbn; lra. }
  assert (K1 : key (Fz 1 : f64) = 1).
  { rewrite (key_sf (Fz 1) false 4503599627370496 (-52)) by (vm_compute; reflexivity); unfold F2R; cbn; lra. }
  pose proof (bpow_gt_0 radix2 1024) as HB.
  assert (B2 : 4 <= bpow radix2 1024) by (change 4 with (bpow radix2 2); apply bpow_le; lia).
  split; [reflexivity|]; split; [vm_compute; reflexivity|]; split; [vm_compute; reflexivity|].
  split; [cbn [capped min_value max_value]; rewrite K1; change (key nneginf) with (- bpow radix2 1024); lra|].
  intros v b Fv Dv [->|(-> & Nb)]; cbn [capped max_step_abs max_step_rel] in *; [rewrite K3; lra|].
  destruct v as [s|s| |s m x Hx]; try discriminate.
  change (2 < bpow radix2 1024); lra.
Qed.

(** From any point of [0; 2] x [0; 2], inside of the bounds or not, damped or not. *)
Example C99_case : forall damped x0 y0 maxit, isfin x0 = true -> isfin y0 = true ->
  Rabs (key x0 - 1) <= 1 -> Rabs (key y0 - 1) <= 1 -> (40 <= maxit)%nat ->
  exists rf, rootfinder_new (mkSolverParameters 2 (ndec 1 1000000) maxit NewtonRaphson damped) [x0; y0]
    (map iterative_of_params [capped; capped]) (all_abs 2) = Ret rf /\
  exists rf' s', solve (model_from_function_and_jacobian pair_func pair_jac) rf (user_model_new 2) = Ret (rf', s', Ok tt) /\
    (rf_iter rf' <= 40)%nat.
Proof.
  intros damped x0 y0 maxit Fx Fy Ax Ay HM.
  destruct (rootfinder_new (mkSolverParameters 2 (ndec 1 1000000) maxit NewtonRaphson damped) [x0; y0]
    (map iterative_of_params [capped; capped]) (all_abs 2)) as [rf|pn] eqn:HN; [|discriminate].
  exists rf; split; [reflexivity|].
  pose proof u53_small as HU; pose proof u53_value as UV; pose proof tiny_pos as HT; pose proof huge_big as HH.
  assert (H10 : 1024 <= huge) by (change 1024 with (bpow radix2 10); apply bpow_le; lia).
  assert (CP : computed pair_func 2 (fun _ => 1) 1 pair_slopes 5 (40 * u53)).
  { intros x (L & A); destruct x as [|a [|c [|? ?]]]; try discriminate.
    destruct (A O ltac:(lia)) as (Fa & Aa); destruct (A 1%nat ltac:(lia)) as (Fc & Ac).
    split; [reflexivity|]; intros [|[|i]] Hi; try lia; cbn [rsum]; unfold pair_slopes; cbn [Nat.eqb].
    - destruct (pair_value a c Fa Fc Aa Ac) as (V1 & V2); split; [exact V1|]; split.
      + change (ent (pair_func [a; c]) 0) with (key (nsub (nadd (nmul (Fz 4) a) c) (Fz 5))).
        change (ent [a; c] 0) with (key a); change (ent [a; c] 1) with (key c).
        replace (4 * (key a - 1) + (1 * (key c - 1) + 0)) with (4 * (key a - 1) + (key c - 1)) by ring; exact V2.
      + rewrite !Rabs_pos_eq by lra; lra.
    - destruct (pair_value c a Fc Fa Ac Aa) as (V1 & V2); split; [exact V1|]; split.
      + change (ent (pair_func [a; c]) 1) with (key (nsub (nadd (nmul (Fz 4) c) a) (Fz 5))).
        change (ent [a; c] 0) with (key a); change (ent [a; c] 1) with (key c).
        replace (1 * (key a - 1) + (4 * (key c - 1) + 0)) with (4 * (key c - 1) + (key a - 1)) by ring; exact V2.
      + rewrite !Rabs_pos_eq by lra; lra. }
  assert (RO : 0 <= roundings 2 0.25 (5 * (1 + 0) + 40 * u53) 2 (40 * u53) <= 30 * u53).
  { unfold roundings; change (INR 2) with 2.
    assert (0 <= u53 * (0.25 * (5 * (1 + 0) + 40 * u53)) <= u53 * 1.3) by (split; [apply Rmult_le_pos; lra|apply Rmult_le_compat_l; lra]).
    lra. }
  assert (CT : contracting 2 (fun _ => 1) 1 0 5 (40 * u53) 0.25 0.25 2).
  { constructor; try lra; [intros; rewrite Rabs_R1; lra|change (INR 2) with 2; lra]. }
  assert (SH : 0 <= run_factor damped 0.25 <= 0.625 /\ 0 <= run_shift damped 2 1 0 5 (40 * u53) 0.25 0.25 2 <= 50 * u53).
  { unfold run_factor, run_shift; destruct damped; [|lra].
    unfold damped_shift, damped_rate, damped_roundings; lra. }
  assert (CR : contracting_run damped 2 (fun _ => 1) 1 0 5 (40 * u53) 0.25 0.25 2).
  { unfold contracting_run; unfold run_factor, run_shift in SH; destruct damped; [|exact CT].
    split; [exact CT|lra]. }
  destruct pair_inverse as (H & EH & NI).
  assert (A0 : around 2 (fun _ => 1) 1 [x0; y0])
    by (split; [reflexivity|]; intros [|[|i]] Hi; try lia; split; assumption).
  assert (IV : forall x, around 2 (fun _ => 1) 1 x -> squaref 2 (pair_jac x) /\
    exists H, lu_inverse (pair_jac x) = Some H /\ nearly_inverse 2 H (pair_slopes x) 0.25 0.25).
  { intros x A; split.
    - split; [reflexivity|]; unfold pair_jac; intros l HL; cbn [In] in HL; destruct HL as [<-|[<-|[]]]; reflexivity.
    - exists H; split; [exact EH|apply NI]. }
  assert (RM : room [capped; capped] (fun _ => 1) 1 0).
  { pose proof capped_wide as W; intros i p EP; rewrite Rplus_0_r, Rmult_1_r.
    destruct i as [|[|[|i]]]; cbn in EP; try discriminate; injection EP as <-; exact W. }
  assert (PR := C99_newton damped pair_func pair_jac 2 (fun _ => 1) 1 pair_slopes 5 (40 * u53) 0.25 0.25 2 [capped; capped]
    (ndec 1 1000000) maxit [x0; y0] rf CP CR eq_refl RM IV (proj1 close_tolerance) A0 HN).
  destruct PR as (rf' & s' & y & EY & _ & AY & _ & TT & PR); destruct close_tolerance as (_ & T1 & T2).
  destruct (PR 40%nat HM) as (O1 & O2); [|exists rf', s'; split; assumption].
  apply Rle_trans with (2 := T1); change (bpow radix2 (-20)) with (/ 1048576).
  set (f := run_factor _ _) in *; set (sh := run_shift _ _ _ _ _ _ _ _ _) in *; clearbody f sh; destruct SH as (SF & SH).
  assert (P40 : 0 <= f ^ 40 <= 0.00000001).
  { split; [apply pow_le; lra|]; apply Rle_trans with (0.625 ^ 40); [apply pow_incr; exact SF|].
    replace 40%nat with (10 * 4)%nat by reflexivity; rewrite pow_mult.
    assert (P10 : 0 <= 0.625 ^ 10 <= 0.0091) by (cbn [pow]; lra).
    apply Rle_trans with (0.0091 ^ 4); [apply pow_incr; exact P10|cbn [pow]; lra]. }
  assert (EH2 : 0 <= sh / (1 - f) <= 200 * u53).
  { assert (0 < / (1 - f)) by (apply Rinv_0_lt_compat; lra).
    assert (/ (1 - f) <= 4) by (replace 4 with (/ / 4) by lra; apply Rinv_le_contravar; lra).
    unfold Rdiv; split; [apply Rmult_le_pos; lra|].
    apply Rle_trans with (50 * u53 * 4); [apply Rmult_le_compat; lra|lra]. }
  lra.
Qed.

(** x - 1 = 0 from x = 0 for x >= 0: solved in one iteration without the
    relative limit 1/2 on the steps, never left with it. *)
Definition growing (rel : f64) : iterative_params f64 := mkIterativeParams ninf rel (Fz 0) ninf.
Definition less_one (v : vec f64) : vec f64 := match v with [x] => [nsub x (Fz 1)] | _ => [] end.
Definition growing_run (rel : f64) (x0 : f64) (damping : bool) : option (nat * bool * bool * bool) :=
  match rootfinder_new (mkSolverParameters 1 (ndec 1 1000000) 50 NewtonRaphson damping) [x0]
      (map iterative_of_params [growing rel]) (all_abs 1) with
  | Ret rf =>
      match solve (model_from_function_and_jacobian less_one (fun _ => [[Fz 1]])) rf (user_model_new 1) with
      | Ret (rf', s', r) => Some (rf_iter rf', forallb (neqb n0) (um_inputs s'), is_ok r,
          match r with Err NonConvergenceError => true | _ => false end)
      | Panic _ => None
      end
  | Panic _ => None
  end.
Example C99_stuck_case :
  accepted (growing (ndec 1 2)) /\
  growing_run (ndec 1 2) (Fz 0) false = Some (50%nat, true, false, true) /\
  growing_run (ndec 1 2) (Fz 0) true = Some (50%nat, true, false, true) /\
  growing_run ninf (Fz 0) false = Some (1%nat, false, true, false) /\
  growing_run (ndec 1 2) (ndec 1 4) false = Some (4%nat, false, true, false).
Proof. split; [repeat split|]; repeat split; vm_compute; reflexivity. Qed.

(** The same system with capped variables: both methods, with and without the
    jacobian and the damping. *)
Definition capped_fd : iterative_params_fd f64 :=
  mkIterativeParamsFD capped PMax (ndec 5 100000000) (ndec 5 100000000).
Definition capped_run (given : bool) (m : resolution_method) (damping : bool) : bool :=
  match rootfinder_new (mkSolverParameters 2 (ndec 1 1000000) 40 m damping) [Fz 0; Fz 1]
      (if given then map iterative_of_params [capped; capped] else map iterative_of_params_fd [capped_fd; capped_fd])
      (all_abs 2) with
  | Ret rf =>
      match solve (if given then model_from_function_and_jacobian pair_func pair_jac else model_from_function pair_func)
        rf (user_model_new 2) with
      | Ret (rf', s', r) => is_ok r && Nat.leb 1 (rf_iter rf')
          && forallb (fun a => nltb (ndec 999999 1000000) a && nleb a (Fz 1)) (um_inputs s')
      | Panic _ => false
      end
  | Panic _ => false
  end.
Example C99_case_2 : forall damping,
  capped_run true NewtonRaphson damping = true /\ capped_run false NewtonRaphson damping = true /\
  capped_run true (QuasiNewton StationaryNewton) damping = true /\
  capped_run false (QuasiNewton StationaryNewton) damping = true.
Proof. intros [|]; repeat split; vm_compute; reflexivity. Qed.
