(** C87 and C92: within a box in which the slopes change little, the residuals
    tell the distance to the root, which is the only one. *)
From Coq Require Import Reals Lra Psatz.
From Flocq Require Import Core BinarySingleNaN.
From Verif Require Import Base Num Linalg Residuals Iteratives UserModel Jacobian Solver
  RNum LuFacts XR F64 F64Facts F64Arith LimitFacts Samples PropsQuasi PropsFD ExactFacts ExactRun PropsExact Util1d Props1d LocalFacts
  QuasiRun DampedRun TestCases PropsLocal PropsHalving PropsKantorovich PropsNorm PropsAccuracy.
Open Scope R_scope.

(** Changing one coordinate after the other, from [x] to [c], never leaves a box
    which holds both. *)
Lemma path_box n a rho c x k t : (k < n)%nat -> near n a rho c -> near n a rho x ->
  LocalFacts.within (vent c k - vent x k) t -> near n a rho (shift (mixed c x k) k t).
Proof.
  intros Hk [Lc Nc] [Lx Nx] W.
  assert (Lm : length (mixed c x k) = n) by (apply mixed_length; try assumption; lia).
  split; [rewrite shift_length; exact Lm|]; intros i Hi; specialize (Nc i Hi); specialize (Nx i Hi).
  rewrite shift_vent by (rewrite Lm; exact Hi).
  rewrite (mixed_vent n) by (try assumption; lia).
  destruct (Nat.eqb_spec i k) as [->|Ne].
  - rewrite (proj2 (Nat.ltb_ge k k)) by lia.
    revert Nc Nx; unfold Rabs; destruct W; repeat destruct Rcase_abs; lra.
  - rewrite Rplus_0_r; destruct (Nat.ltb_spec i k); assumption.
Qed.

(** A matrix within [e] of the slopes throughout the box describes the change of
    [f] between two of its points at distance [d] up to [n e d]. *)
Lemma slope_error n f J A a rho e c x d : partials n (near n a rho) f J ->
  (forall y i j, near n a rho y -> (i < n)%nat -> (j < n)%nat -> Rabs (ment A i j - ment (J y) i j) <= e) ->
  near n a rho c -> near n a rho x -> near n c d x -> forall i, (i < n)%nat ->
  Rabs (app n A (vsub_raw x c) i - (vent (f x) i - vent (f c) i)) <= INR n * (e * d).
Proof.
  intros HP CL Bc Bx [Lx N] i Hi; assert (Lc := proj1 Bc).
  assert (ST : forall k, (k < n)%nat -> exists t, LocalFacts.within (vent c k - vent x k) t /\
    vent (f (mixed c x (S k))) i - vent (f (mixed c x k)) i
    = ment (J (shift (mixed c x k) k t)) i k * (vent c k - vent x k)).
  { intros k Hk; rewrite <- (mixed_step n) by assumption.
    apply (mean_value n (near n a rho) f J); try assumption.
    - apply mixed_length; try assumption; lia.
    - intros t W; apply path_box; assumption. }
  assert (T := rsum_telescope n (fun k => vent (f (mixed c x k)) i)); cbv beta in T.
  assert (M0 : mixed c x 0 = x) by reflexivity.
  assert (Mn : mixed c x n = c).
  { unfold mixed; rewrite firstn_all2, skipn_all2, app_nil_r by lia; reflexivity. }
  rewrite M0, Mn in T.
  replace (app n A (vsub_raw x c) i - (vent (f x) i - vent (f c) i))
    with (rsum n (fun k => ment A i k * (vent x k - vent c k) +
       (vent (f (mixed c x (S k))) i - vent (f (mixed c x k)) i))).
  - apply rsum_bound; intros k Hk.
    destruct (ST k Hk) as (t & W & ->).
    replace (ment A i k * (vent x k - vent c k) +
      ment (J (shift (mixed c x k) k t)) i k * (vent c k - vent x k))
      with ((ment A i k - ment (J (shift (mixed c x k) k t)) i k) * (vent x k - vent c k)) by lra.
    rewrite Rabs_mult; apply Rmult_le_compat; try apply Rabs_pos; [|apply N; exact Hk].
    apply CL; try assumption; apply path_box; assumption.
  - rewrite rsum_plus, T; unfold app.
    rewrite (rsum_ext n (fun k => ment A i k * vent (vsub_raw x c) k)
      (fun k => ment A i k * (vent x k - vent c k))); [lra|].
    intros k Hk; rewrite (ent_sub n) by assumption; reflexivity.
Qed.

(** The slopes throughout the box are within [e] of a matrix whose inverse is
    bounded by [b]. *)
Record steady (n : nat) (f : vec R -> vec R) (J : vec R -> mat R) (A : mat R) (a : vec R) (rho e b : R)
  : Prop := {
  sd_partials : partials n (near n a rho) f J;
  sd_slopes : forall y i j, near n a rho y -> (i < n)%nat -> (j < n)%nat ->
    Rabs (ment A i j - ment (J y) i j) <= e;
  sd_regular : bounded_below n A b;
  sd_pos : 0 <= b /\ 0 <= e;
  sd_small : b * (INR n * e) < 1
}.

(** Then values of [f] within [d] of each other belong to points close to each
    other. *)
Lemma steady_distance n f J A a rho e b x y d : steady n f J A a rho e b ->
  near n a rho x -> near n a rho y -> 0 <= d ->
  (forall i, (i < n)%nat -> Rabs (vent (f y) i - vent (f x) i) <= d) ->
  near n x (b / (1 - b * (INR n * e)) * d) y.
Proof.
  intros [HP CL HB [Pb Pe] SM] Bx By Pd V.
  assert (Lx := proj1 Bx); assert (Ly := proj1 By).
  split; [exact Ly|].
  set (w := vsub_raw y x).
  assert (Lw : length w = n) by (apply (len_sub n); assumption).
  assert (En : forall i, (i < n)%nat -> vent w i = vent y i - vent x i)
    by (intros i Hi; unfold w; apply (ent_sub n); assumption).
  assert (Nw : near n x (amax w) y).
  { split; [exact Ly|]; intros i Hi; rewrite <- En by exact Hi.
    apply (proj1 (amax_le w (amax w) (amax_nonneg _))); [lra|rewrite Lw; exact Hi]. }
  assert (P0 : 0 <= amax w) by apply amax_nonneg.
  assert (PN := pos_INR n).
  set (c := d + INR n * (e * amax w)).
  assert (Pc : 0 <= c).
  { unfold c; assert (0 <= INR n * (e * amax w)); [|lra].
    apply Rmult_le_pos; [exact PN|apply Rmult_le_pos; assumption]. }
  assert (AB : forall i, (i < n)%nat -> Rabs (app n A w i) <= c).
  { intros i Hi; assert (S1 := slope_error n f J A a rho e x y (amax w) HP CL Bx By Nw i Hi).
    fold w in S1; specialize (V i Hi); unfold c.
    assert (S2 := Rabs_triang (app n A w i - (vent (f y) i - vent (f x) i)) (vent (f y) i - vent (f x) i)).
    replace (app n A w i - (vent (f y) i - vent (f x) i) + (vent (f y) i - vent (f x) i))
      with (app n A w i) in S2 by lra; lra. }
  assert (WB := HB w c Lw Pc AB).
  assert (MX : amax w <= b * c).
  { apply amax_le; [apply Rmult_le_pos; assumption|]; intros i Hi; apply WB; rewrite <- Lw; exact Hi. }
  set (q := b * (INR n * e)) in *.
  assert (BC : b * c = b * d + q * amax w) by (unfold c, q; ring).
  assert (FIN : amax w <= b / (1 - q) * d).
  { assert (X : amax w * (1 - q) <= b * d) by lra.
    apply Rmult_le_reg_r with (1 - q); [lra|].
    replace (b / (1 - q) * d * (1 - q)) with (b * d) by (field; lra); exact X. }
  intros i Hi; rewrite <- En by exact Hi.
  eapply Rle_trans; [|exact FIN].
  apply (proj1 (amax_le w (amax w) P0)); [lra|rewrite Lw; exact Hi].
Qed.

(** ** C87: the distance to the root, from the slopes *)

Lemma near_equal n x y : length x = n -> near n x 0 y -> x = y.
Proof.
  intros Lx [Ly N]; apply (nth_ext _ _ 0 0); [congruence|]; intros i Hi.
  assert (X := N i ltac:(lia)); change (nth i x 0) with (vent x i); change (nth i y 0) with (vent y i).
  revert X; unfold Rabs; destruct Rcase_abs; lra.
Qed.

(** A box with steady slopes holds at most one root. *)
Theorem C92_one_root : forall n f J A a rho e b x y,
  steady n f J A a rho e b -> near n a rho x -> near n a rho y ->
  (forall i, (i < n)%nat -> vent (f x) i = 0) -> (forall i, (i < n)%nat -> vent (f y) i = 0) -> x = y.
Proof.
  intros n f J A a rho e b x y SD Bx By Zx Zy; apply (near_equal n); [apply Bx|].
  replace 0 with (b / (1 - b * (INR n * e)) * 0) by ring.
  apply (steady_distance n f J A a rho); try assumption; [lra|].
  intros i Hi; rewrite Zx, Zy by exact Hi; rewrite Rminus_0_r, Rabs_R0; lra.
Qed.
Print Assumptions C92_one_root.

(** When the solver accepts a point of such a box, the point is as close to the
    root of the box as the tolerance and the accuracy [eps] of the model tell,
    for every method, with and without damping, in binary64. *)
Theorem C87_slopes :
  forall (IF : Inverter f64) St EI EU (M : Model f64 St EI EU) rf s rf' s' r
    n f J A a rho e b root eps,
  let tol := sp_tolerance (rf_parameters rf) in
  solve M rf s = Ret (rf', s', r) -> r = Ok tt \/ r = Err FinalEvaluationError ->
  stopping_criterias (rf_residuals_config rf) = repeat Abs n ->
  isfin tol = true -> bpow radix2 (-1022) <= key tol ->
  accurate_at M n (fun i x => vent (f x) i) eps s' ->
  steady n f J A a rho e b ->
  near n a rho root -> (forall i, (i < n)%nat -> vent (f root) i = 0) ->
  near n a rho (map key (get_iteratives M s')) ->
  near n root (b / (1 - b * (INR n * e)) * (key tol * (1 + bpow radix2 (-50)) + eps))
    (map key (get_iteratives M s')).
Proof.
  intros IF St EI EU M rf s rf' s' r n f J A a rho e b root eps tol HS HR HC Ft Nt AC SD BR ZR BY.
  split; [apply BY|]; intros j Hj.
  apply (C87_distance IF St EI EU M rf s rf' s' r (fun x => near n a rho (map key x)) n
    (fun i x => vent (f x) i) (vent root) _ eps HS HR HC Ft Nt AC); try assumption.
  intros x d BX V i Hi.
  assert (Pd : 0 <= d) by (apply Rle_trans with (2 := V i Hi); apply Rabs_pos).
  apply (steady_distance n f J A a rho e b root (map key x) d SD BR BX Pd); [|exact Hi].
  intros k Hk; rewrite ZR by exact Hk; rewrite Rminus_0_r; apply V; exact Hk.
Qed.
Print Assumptions C87_slopes.

(** ** C92: the root found is the only one, and how far the reported point is *)

Lemma guess_steady n f J x0 ell b eta : good_guess n f J x0 ell b eta ->
  steady n f J (J x0) x0 (3 / 2 * eta) (ell * (3 / 2 * eta)) b.
Proof.
  intros G; assert (G' := G); destruct G' as [Lx (Pl & Pb & Pe) _ _ HP HL HB _ SM].
  assert (D0 := D_guess n f J x0 ell b eta G).
  split; try assumption.
  - intros y i j Ny Hi Hj; rewrite Rabs_minus_sym; apply (HL x0 y); assumption.
  - split; [exact Pb|apply Rmult_le_pos; lra].
  - replace (b * (INR n * (ell * (3 / 2 * eta)))) with (3 / 2 * (b * (INR n * ell) * eta)) by ring; lra.
Qed.

Theorem C92_distance : forall n func jac (f : vec R -> vec R) (J : vec R -> mat R) x0 ell b eta,
  (forall x, near n x0 (3 / 2 * eta) x -> func (lift x) = lift (f x)) ->
  (forall x, near n x0 (3 / 2 * eta) x -> jac (lift x) = liftm (J x)) ->
  good_guess n f J x0 ell b eta ->
  exists xs, near n x0 (3 / 2 * eta) xs /\
  (forall z, near n x0 (3 / 2 * eta) z -> (forall i, (i < n)%nat -> vent (f z) i = 0) <-> z = xs) /\
  forall tol maxit damping rf rf' s',
  rootfinder_new (mkSolverParameters n (Fin tol) maxit NewtonRaphson damping) (lift x0)
    (jac_iteratives n) (all_abs n) = Ret rf ->
  solve (model_from_function_and_jacobian func jac) rf (user_model_new n) = Ret (rf', s', Ok tt) ->
  exists y, um_inputs s' = lift y /\ near n xs (8 / 5 * b * tol) y.
Proof.
  intros n func jac f J x0 ell b eta Hf HJ G.
  destruct (C92_promises_at_the_guess n func jac f J x0 ell b eta Hf HJ G) as (xs & DX & ZX & ALL).
  assert (SD := guess_steady n f J x0 ell b eta G).
  exists xs; split; [exact DX|]; split.
  - intros z Dz; split; [|intros ->; exact ZX].
    intros Zz; exact (C92_one_root n f J _ _ _ _ _ z xs SD Dz DX Zz ZX).
  - intros tol maxit damping rf rf' s' HN HS.
    destruct (ALL tol maxit damping rf HN) as (rf1 & s1 & y & EY & _ & DY & _ & RUN & _).
    destruct RUN as [[E T]|[E _]]; rewrite E in HS; [|discriminate].
    assert (s1 = s') by congruence; subst s1.
    exists y; split; [exact EY|].
    assert (PT : n <> O -> 0 <= tol).
    { intros Nz; apply Rle_trans with (2 := T O ltac:(lia)); apply Rabs_pos. }
    split; [apply DY|]; intros i Hi.
    assert (Pt : 0 <= tol) by (apply PT; lia).
    assert (X := steady_distance n f J _ _ _ _ _ xs y tol SD DX DY Pt).
    assert (V : forall k, (k < n)%nat -> Rabs (vent (f y) k - vent (f xs) k) <= tol).
    { intros k Hk; rewrite ZX by exact Hk; rewrite Rminus_0_r; apply T; exact Hk. }
    apply (proj2 (X V)) in Hi; eapply Rle_trans; [exact Hi|].
    destruct G as [_ (Pl & Pb & Pe) _ _ _ _ _ _ SM].
    set (q := b * (INR n * (ell * (3 / 2 * eta)))).
    assert (Q : q <= 3 / 8).
    { unfold q; replace (b * (INR n * (ell * (3 / 2 * eta)))) with (3 / 2 * (b * (INR n * ell) * eta)) by ring; lra. }
    apply Rmult_le_compat_r; [exact Pt|].
    unfold Rdiv at 1; rewrite (Rmult_comm (8 / 5)); apply Rmult_le_compat_l; [exact Pb|].
    replace (8 / 5) with (/ (5 / 8)) by field; apply Rinv_le_contravar; lra.
Qed.
Print Assumptions C92_distance.

(** The root of the ninth problem of Broyden is [(1, 1)]. *)
Example C92_distance_case :
  (forall z, near 2 [1001 / 1000; 1002 / 1000] (63 / 20000) z -> case9 z = [0; 0] <-> z = [1; 1]) /\
  forall maxit damping rf, (3 <= maxit)%nat ->
  rootfinder_new (mkSolverParameters 2 (Fin (1 / 1000000)) maxit NewtonRaphson damping)
    (lift [1001 / 1000; 1002 / 1000]) (jac_iteratives 2) (all_abs 2) = Ret rf ->
  exists rf' s' y,
    solve (model_from_function_and_jacobian case9 case9_jac) rf (user_model_new 2)
    = Ret (rf', s', Ok tt) /\ um_inputs s' = lift y /\ near 2 [1; 1] (4 / 1000000) y.
Proof.
  assert (Z2 : forall z, length z = 2%nat ->
    (case9 z = [0; 0] <-> forall i, (i < 2)%nat -> vent (case9 z) i = 0)).
  { intros z Lz; destruct (len2 z Lz) as (p & q & ->); split.
    - intros -> [|[|i]] Hi; [reflexivity|reflexivity|lia].
    - intros Z; pose proof (Z O ltac:(lia)) as Z0; pose proof (Z 1%nat ltac:(lia)) as Z1.
      unfold vent in Z0, Z1; cbn in Z0, Z1; cbn; repeat f_equal; assumption. }
  destruct (C92_distance 2 case9 case9_jac case9 case9_jac
    [1001 / 1000; 1002 / 1000] 20 (211 / 100) (21 / 10000)) as (xs & N & U & ALL).
  - intros x [Lx _]; destruct (len2 x Lx) as (a & c & ->); cbn; repeat f_equal; lra.
  - intros x [Lx _]; destruct (len2 x Lx) as (a & c & ->); reflexivity.
  - exact case9_guess.
  - replace (3 / 2 * (21 / 10000)) with (63 / 20000) in * by lra.
    assert (E1 : [1; 1] = xs).
    { apply U.
      - split; [reflexivity|]; intros [|[|i]] Hi; [| |lia]; unfold vent; cbn; unfold Rabs; destruct Rcase_abs; lra.
      - intros [|[|i]] Hi; [| |lia]; unfold vent, nsq; cbn; lra. }
    subst xs; split.
    { intros z Nz; rewrite (Z2 z (proj1 Nz)); exact (U z Nz). }
    intros maxit damping rf LM HN.
    destruct C92_case as (xs1 & N1 & Z1 & RUN).
    destruct (RUN maxit damping rf LM HN) as (rf' & s' & _ & SOL & _).
    destruct (ALL _ _ _ _ _ _ HN SOL) as (y & EY & NY).
    exists rf', s', y; split; [exact SOL|]; split; [exact EY|].
    apply near_le with (2 := NY); lra.
Qed.

(** Newton-Raphson with finite differences on the square root of 2: the slopes
    between 1 and 2 are within 1 of 3. *)
Definition square_fun (x : vec R) : vec R := [vent x 0 * vent x 0 - 2].
Definition square_slope (x : vec R) : mat R := [[2 * vent x 0]].
Lemma square_steady : steady 1 square_fun square_slope [[3]] [3 / 2] (/ 2) 1 (/ 3).
Proof.
  constructor.
  - intros x i j _ Lx Hi Hj; assert (i = O) by lia; assert (j = O) by lia; subst i j.
    destruct x as [|a [|? ?]]; try discriminate Lx.
    unfold square_fun, square_slope, ment, vent; cbn [nth].
    apply (derivable_pt_lim_ext (fun t => (a + t) * (a + t) - 2)).
    + intros t; reflexivity.
    + replace (2 * a) with ((0 + 1) * (a + 0) + (a + 0) * (0 + 1) - 0) by lra.
      apply derivable_pt_lim_minus; [|apply derivable_pt_lim_const].
      apply derivable_pt_lim_mult; (apply derivable_pt_lim_plus; [apply derivable_pt_lim_const|apply derivable_pt_lim_id]).
  - intros y i j [Ly N] Hi Hj; assert (i = O) by lia; assert (j = O) by lia; subst i j.
    specialize (N O Hi); unfold ment, square_slope, vent in *; cbn [nth] in *.
    revert N; unfold Rabs; repeat destruct Rcase_abs; lra.
  - intros v c Lv Pc B i Hi; assert (i = O) by lia; subst i; specialize (B O Hi).
    unfold app, ment, vent in *; cbn in B; revert B; cbn.
    unfold Rabs; repeat destruct Rcase_abs; lra.
  - lra.
  - cbn; lra.
Qed.

Example C87_slopes_case : exists rf rf' s', default_square = Ret rf /\
  solve (model_from_function sq2) rf (user_model_new 1) = Ret (rf', s', Ok tt) /\
  near 1 [sqrt 2] (/ 1000000) (map key (um_inputs s')).
Proof.
  assert (Q : match default_square with
              | Ret rf => check_run (solve (model_from_function sq2) rf (user_model_new 1))
                  (fun _ s r => is_ok r &&
                     match um_inputs s, um_left s, um_right s with
                     | [a], [l], [z] => nleb n1 a && nleb a n2 &&
                         (nleb l (nsub (nmul a a) (Fz 2)) && nleb (nsub (nmul a a) (Fz 2)) l) &&
                         (nleb z n0 && nleb n0 z)
                     | _, _, _ => false
                     end) && nleb (sp_tolerance (rf_parameters rf)) (@B754_finite 53 1024 false 4503599627370496 (-71) eq_refl) &&
                  nleb (@B754_finite 53 1024 false 4503599627370496 (-1074) eq_refl) (sp_tolerance (rf_parameters rf)) &&
                  match stopping_criterias (rf_residuals_config rf) with [Abs] => true | _ => false end
              | Panic _ => false
              end = true) by (vm_compute; reflexivity).
  destruct default_square as [rf|] eqn:Er; [|discriminate Q].
  apply andb_prop in Q; destruct Q as (Q & QC); apply andb_prop in Q; destruct Q as (Q & QT2).
  apply andb_prop in Q; destruct Q as (Q & QT1).
  assert (EC : stopping_criterias (rf_residuals_config rf) = repeat Abs 1).
  { destruct (stopping_criterias (rf_residuals_config rf)) as [|[] [|? ?]]; try discriminate QC; reflexivity. }
  apply leb_true_inv in QT1, QT2; destruct QT1 as (NT & _ & QT1), QT2 as (_ & _ & QT2).
  rewrite power_key in QT1, QT2.
  apply check_run_true in Q; destruct Q as (rf' & s' & r & Es & Q).
  apply andb_prop in Q; destruct Q as (Qr & Q).
  destruct r as [[]|e]; [|discriminate Qr].
  destruct (um_inputs s') as [|a [|? ?]] eqn:Ea; try discriminate Q.
  destruct (um_left s') as [|l [|? ?]] eqn:El; try discriminate Q.
  destruct (um_right s') as [|z [|? ?]] eqn:Ez; try discriminate Q.
  apply andb_prop in Q; destruct Q as (Q & QZ); apply andb_prop in QZ; destruct QZ as (QZ1 & QZ2).
  apply andb_prop in Q; destruct Q as (Q & QL); apply andb_prop in QL; destruct QL as (QL1 & QL2).
  apply andb_prop in Q; destruct Q as (Q1 & Q2).
  apply leb_true_inv in Q1, Q2, QZ1, QZ2, QL1, QL2.
  destruct Q1 as (_ & Na & Q1), Q2 as (_ & _ & Q2), QZ1 as (Nz & _ & QZ1), QZ2 as (_ & _ & QZ2),
    QL1 as (Nl & _ & QL1), QL2 as (_ & _ & QL2).
  rewrite key_n1 in Q1; rewrite key_n2 in Q2; rewrite key_n0 in QZ1, QZ2.
  assert (BIG : 1024 <= big).
  { assert (B4 : bpow radix2 10 <= big) by (apply bpow_le; lia).
    change (bpow radix2 10) with 1024 in B4; exact B4. }
  assert (FIN : forall x : f64, isnan x = false -> Rabs (key x) <= 100 -> isfin x = true).
  { intros x Nx Bx; apply key_finite; [exact Nx|lra]. }
  assert (Fa : isfin a = true) by (apply FIN; [exact Na|apply Rabs_le; lra]).
  destruct (square_accurate a Fa ltac:(lra)) as [FS AS].
  assert (US : 16 * u53 <= / 1000000).
  { replace (16 * u53) with (bpow radix2 (-49)).
    2: { change 16 with (bpow radix2 4); now rewrite <- bpow_plus. }
    apply Rle_trans with (bpow radix2 (-20)); [apply bpow_le; lia|].
    change (bpow radix2 (-20)) with (/ 1048576); lra. }
  assert (KL : key l = key (nsub (nmul a a) (Fz 2))) by lra.
  assert (SQ : 0 <= key a * key a <= 4) by nra.
  assert (Fl : isfin l = true).
  { apply FIN; [exact Nl|]; rewrite KL; apply Rabs_le; apply Rabs_le_inv in AS; lra. }
  assert (Fzz : isfin z = true) by (apply FIN; [exact Nz|apply Rabs_le; lra]).
  set (tol := sp_tolerance (rf_parameters rf)) in *.
  assert (P19 : bpow radix2 (52 + -71) = / 524288) by reflexivity.
  assert (P50 : bpow radix2 (-50) <= / 1024).
  { change (/ 1024) with (bpow radix2 (-10)); apply bpow_le; lia. }
  assert (Pmin := bpow_gt_0 radix2 (52 + -1074)).
  assert (Ft : isfin tol = true) by (apply FIN; [exact NT|apply Rabs_le; lra]).
  assert (S2 := sqrt_sqrt 2 ltac:(lra)); assert (S0 := sqrt_pos 2).
  assert (S1 : 1 <= sqrt 2) by (rewrite <- sqrt_1; apply sqrt_le_1_alt; lra).
  exists rf, rf', s'; split; [reflexivity|]; split; [exact Es|].
  assert (X := C87_slopes _ _ _ _ (model_from_function sq2) rf (user_model_new 1) rf' s' (Ok tt)
    1 square_fun square_slope [[3]] [3 / 2] (/ 2) 1 (/ 3) [sqrt 2] (16 * u53) Es (or_introl eq_refl) EC Ft QT2).
  fold tol in X; change (get_iteratives (model_from_function sq2) s') with (um_inputs s') in X.
  rewrite Ea in X; cbn [map] in X.
  assert (Y : near 1 [sqrt 2] (/ 3 / (1 - / 3 * (INR 1 * 1)) * (key tol * (1 + bpow radix2 (-50)) + 16 * u53)) [key a]).
  { apply X.
    - intros v HV i l1 r1 Hi EL1 ER1; assert (i = O) by lia; subst i.
      change (get_residuals (model_from_function sq2) s') with (residuals_values_new (um_left s') (um_right s')) in HV.
      rewrite El, Ez in HV; cbn in HV; injection HV as <-; cbn in EL1, ER1.
      injection EL1 as <-; injection ER1 as <-.
      split; [exact Fl|]; split; [exact Fzz|].
      change (get_iteratives (model_from_function sq2) s') with (um_inputs s'); rewrite Ea.
      unfold square_fun, vent; cbn [map nth]; rewrite KL.
      replace (key z) with 0 by lra; rewrite Rminus_0_r; exact AS.
    - exact square_steady.
    - split; [reflexivity|]; intros i Hi; assert (i = O) by lia; subst i; unfold vent; cbn [nth].
      apply Rabs_le; split; [lra|]; nra.
    - intros i Hi; assert (i = O) by lia; subst i; unfold square_fun, vent; cbn [nth]; lra.
    - split; [reflexivity|]; intros i Hi; assert (i = O) by lia; subst i; unfold vent; cbn [nth].
      apply Rabs_le; lra. }
  rewrite Ea; apply near_le with (2 := Y); cbn [INR].
  assert (TB : key tol * (1 + bpow radix2 (-50)) <= / 524288 * (1 + / 1024)).
  { apply Rmult_le_compat; try lra; assert (Z := bpow_gt_0 radix2 (-50)); lra. }
  assert (US2 : 16 * u53 <= / 1000000000).
  { replace (16 * u53) with (bpow radix2 (-49)).
    2: { change 16 with (bpow radix2 4); now rewrite <- bpow_plus. }
    apply Rle_trans with (bpow radix2 (-30)); [apply bpow_le; lia|].
    change (bpow radix2 (-30)) with (/ 1073741824); lra. }
  replace (/ 3 / (1 - / 3 * (1 * 1))) with (/ 2) by field; lra.
Qed.
