(** Runs of the solver in exact arithmetic when damping may step in: the model
    ends an iteration at the proposed point or half way to it
    (solver/rootfinder.rs:300-387), and a run whose iterations all bring the
    variables closer to a point ends close to that point. *)
From Coq Require Import Reals Lra.
From Verif Require Import Base Num Linalg Residuals Iteratives UserModel Jacobian Solver
  RNum LuFacts XR PropsQuasi PropsFD ExactFacts ExactRun LocalFacts QuasiRun.
Open Scope R_scope.

(** The point half way between two points. *)
Definition midpoint (a b : vec R) : vec R := map2 (fun x y => (x + y) / 2) a b.

Lemma midpoint_length a b : length a = length b -> length (midpoint a b) = length b.
Proof. intros L; unfold midpoint; rewrite map2_length; auto. Qed.

Lemma midpoint_entry : forall a b i, (i < length a)%nat -> (i < length b)%nat ->
  vent (midpoint a b) i = (vent a i + vent b i) / 2.
Proof.
  induction a as [|x a IH]; intros [|y b] i Ha Hb; cbn [length] in *; try lia.
  destruct i as [|i]; [reflexivity|]; unfold vent, midpoint in *; cbn [map2 nth]; apply IH; lia.
Qed.

Lemma midpoint_damped (a b : vec R) : length a = length b ->
  damped_guess (lift a) (lift b) = Ret (lift (midpoint a b)).
Proof.
  intros Le; unfold damped_guess, damping_factor.
  assert (H2 : ndiv n1 n2 = Fin (1 / 2)).
  { cbn [ndiv n1 n2 Num_XR]; apply fin_div; lra. }
  rewrite H2.
  change (nsub n1 (Fin (1 / 2))) with (Fin (1 - 1 / 2)).
  rewrite !lift_vscale, lift_vadd by (unfold vscale; rewrite !map_length; exact Le).
  f_equal; f_equal; unfold vadd_raw, vscale, midpoint; clear.
  revert b; induction a as [|x a IH]; intros [|y b]; cbn [map map2]; try reflexivity.
  rewrite IH; f_equal; cbn [nadd nmul Num_R]; lra.
Qed.

Lemma midpoint_near n c ra rb a b : near n c ra a -> near n c rb b ->
  near n c ((ra + rb) / 2) (midpoint a b).
Proof.
  intros [La Na] [Lb Nb]; split; [rewrite midpoint_length; congruence|].
  intros i Hi; rewrite midpoint_entry by lia.
  specialize (Na i Hi); specialize (Nb i Hi).
  replace ((vent a i + vent b i) / 2 - vent c i)
    with ((vent a i - vent c i) / 2 + (vent b i - vent c i) / 2) by lra.
  eapply Rle_trans; [apply Rabs_triang|].
  unfold Rdiv; rewrite !Rabs_mult, (Rabs_right (/ 2)) by lra; lra.
Qed.

Section Damped.
Context {St EI EU : Type} (M : Model XR St EI EU) (n : nat) (conf : residuals_config)
  (Good : St -> Prop) (D : vec R -> Prop) (L Rg U E : vec R -> vec R)
  (WB : well_behaved M n conf Good D L Rg U E).
Notation at_point := (at_point M n Good D L Rg).
Notation source := (jacobian_source M n conf Good D L Rg U).

(** What an iteration leaves alone. *)
Definition settled (rf rf' : rootfinder XR) : Prop :=
  rf_parameters rf' = rf_parameters rf /\ rf_residuals_config rf' = rf_residuals_config rf /\
  rf_iters_params rf' = rf_iters_params rf /\ rf_debug rf' = rf_debug rf /\
  rf_iter rf' = rf_iter rf /\ rf_jacobian rf' = rf_jacobian rf.

(** The point kept: half way to the proposed point if the error is larger there
    and damping is wanted, the proposed point otherwise. *)
Definition kept_point (damping : bool) (z w : vec R) : vec R :=
  if damping && Rltb (amax (E z)) (amax (E w)) then midpoint z w else w.

(** Newton-Raphson and stationary Newton, at an accurate evaluation. *)
Lemma update_kept rf z s w : rf_debug rf = false -> rf_residuals_config rf = conf ->
  jm_approximated (rf_jacobian rf) = false -> at_point z s ->
  D w -> length w = n -> D (midpoint z w) ->
  exists rf' s' y, y = kept_point (sp_damping (rf_parameters rf)) z w /\
    at_point y s' /\ rf_valid_last rf' = true /\ settled rf rf' /\
    update_model M rf s (lift w) = Ret (rf', s', Ok (lift (E y))).
Proof.
  intros ND HC NA PZ DW LW DM.
  unfold update_model; rewrite (errors_at M n conf Good D L Rg U E WB rf z s) by auto; cbn [bind].
  destruct (wb_eval _ _ _ _ _ _ _ _ _ WB s w (proj1 PZ) DW LW) as (s2 & E2 & P2).
  rewrite E2; cbn [bind].
  unfold finish_update.
  rewrite (errors_at M n conf Good D L Rg U E WB (set_valid rf true) w s2) by auto; cbn [bind].
  unfold when_debug at 1; replace (rf_debug (set_valid rf true)) with false by (symmetry; exact ND).
  cbn [bind].
  assert (Lz : length z = n) by apply PZ.
  assert (ED : exists s3 y, y = kept_point (sp_damping (rf_parameters rf)) z w /\
    at_point y s3 /\
    (if sp_damping (rf_parameters (set_valid rf true))
     then damping M (set_valid rf true) s2 (amax (lift (E z))) (get_iteratives M s) (lift w) (lift (E w))
     else Ret (set_valid rf true, s2, lift (E w))) = Ret (set_valid rf true, s3, lift (E y))).
  { change (rf_parameters (set_valid rf true)) with (rf_parameters rf).
    unfold kept_point; destruct (sp_damping (rf_parameters rf)) eqn:SD; [|exists s2, w; auto].
    cbn [andb].
    unfold damping; rewrite !lift_amax; unfold ngtb; cbn [nltb Num_XR xltb].
    destruct (Rltb (amax (E z)) (amax (E w))); [|exists s2, w; auto].
    change (rf_jacobian (set_valid rf true)) with (rf_jacobian rf); rewrite NA, andb_false_r.
    destruct PZ as (_ & _ & _ & Qz & _); rewrite Qz.
    rewrite midpoint_damped by congruence; cbn [bind].
    destruct (wb_eval _ _ _ _ _ _ _ _ _ WB s2 (midpoint z w) (proj1 P2) DM
      ltac:(rewrite midpoint_length; congruence)) as (s3 & E3 & P3).
    rewrite E3; cbn [bind].
    rewrite (errors_at M n conf Good D L Rg U E WB (set_valid rf true) (midpoint z w) s3) by auto.
    cbn [bind]; unfold when_debug.
    replace (rf_debug (set_valid rf true)) with false by (symmetry; exact ND); cbn [bind].
    exists s3, (midpoint z w); auto. }
  destruct ED as (s3 & y & Y & P3 & ->); cbn [bind].
  unfold store_steps; change (rf_parameters (set_valid rf true)) with (rf_parameters rf).
  destruct PZ as (_ & Dz & _ & Qz & _); assert (P3' := P3); destruct P3' as (_ & Dy & Ly & Qy & _).
  rewrite Qz, Qy.
  destruct (wb_stopping _ _ _ _ _ _ _ _ _ WB z Dz Lz) as [LE1 _],
    (wb_stopping _ _ _ _ _ _ _ _ _ WB y Dy Ly) as [LE2 _].
  rewrite !lift_vsub by congruence; cbn [bind].
  destruct (sp_resolution_method (rf_parameters rf)) as [|[|u|u]]; cbn [bind]; (eexists _, s3, y;
    split; [exact Y|]; split; [exact P3|]; split; [|split; [|reflexivity]]); repeat split.
Qed.

(** The proposed point, or half way to it. *)
Lemma update_damped rf z s w : rf_debug rf = false -> rf_residuals_config rf = conf ->
  jm_approximated (rf_jacobian rf) = false -> at_point z s ->
  D w -> length w = n -> D (midpoint z w) ->
  exists rf' s' y, (y = w \/ sp_damping (rf_parameters rf) = true /\ y = midpoint z w) /\
    at_point y s' /\ rf_valid_last rf' = true /\ settled rf rf' /\
    update_model M rf s (lift w) = Ret (rf', s', Ok (lift (E y))).
Proof.
  intros ND HC NA PZ DW LW DM.
  destruct (update_kept rf z s w ND HC NA PZ DW LW DM) as (rf' & s' & y & -> & Q).
  exists rf', s', (kept_point (sp_damping (rf_parameters rf)) z w); split; [|exact Q].
  unfold kept_point; destruct (sp_damping (rf_parameters rf)); cbn [andb]; [|left; reflexivity].
  destruct (Rltb _ _); auto.
Qed.

(** A run that brings the variables closer to [xs] at each iteration. *)
Fixpoint bound (q c r : R) (k : nat) : R :=
  match k with O => r | S k' => q * bound q c r k' + c end.

Lemma bound_step q c r k : bound q c (q * r + c) k = bound q c r (S k).
Proof. induction k as [|k IH]; [reflexivity|]; cbn [bound] in *; rewrite IH; reflexivity. Qed.

Lemma bound_limit q c r k : 0 <= q < 1 -> 0 <= c -> bound q c r k <= q ^ k * r + c / (1 - q).
Proof.
  intros Q C; induction k as [|k IH]; cbn [bound pow].
  - assert (0 <= c / (1 - q)); [|lra].
    apply Rmult_le_pos; [exact C|]; left; apply Rinv_0_lt_compat; lra.
  - apply Rle_trans with (q * (q ^ k * r + c / (1 - q)) + c).
    + apply Rplus_le_compat_r, Rmult_le_compat_l; lra.
    + right; field; lra.
Qed.

Lemma bound_pos q c r k : 0 <= q -> 0 <= c -> 0 <= r -> 0 <= bound q c r k.
Proof.
  intros Q C P; induction k as [|k IH]; cbn [bound]; [exact P|].
  assert (0 <= q * bound q c r k) by (apply Rmult_le_pos; assumption); lra.
Qed.

Context (xs : vec R) (rho lam q c tol : R) (Q : 0 <= q) (C : 0 <= c) (QC : q * rho + c <= rho)
  (Lam : 0 <= lam)
  (Small : forall x r, 0 <= r <= rho -> near n xs r x -> amax (E x) <= lam * r)
  (Inv : rootfinder XR -> vec R -> St -> Prop) (maxit : nat)
  (HI : forall rf x s, Inv rf x s -> at_point x s /\ rf_valid_last rf = true /\
     sp_tolerance (rf_parameters rf) = Fin tol /\ sp_max_iter (rf_parameters rf) = maxit)
  (HS : forall rf x s r, Inv rf x s -> 0 <= r <= rho -> near n xs r x -> tol < amax (E x) ->
     exists rf' s' y, iteration M rf s = Ret (rf', s', Ok (lift (E y))) /\ Inv rf' y s' /\
       near n xs (q * r + c) y /\ rf_iter rf' = S (rf_iter rf)).

Lemma next_radius r : 0 <= r <= rho -> 0 <= q * r + c <= rho.
Proof.
  intros P; assert (0 <= q * r) by (apply Rmult_le_pos; lra).
  assert (q * r <= q * rho) by (apply Rmult_le_compat_l; lra); lra.
Qed.

Lemma drawn_iterate : forall left fuel rf s x r, (left < fuel)%nat -> Inv rf x s ->
  0 <= r <= rho -> near n xs r x -> (rf_iter rf + left = maxit)%nat ->
  exists k y rf' s', iterate M fuel rf s (Fin (amax (E x))) = Ret (rf', s', Ok (Fin (amax (E y)))) /\
    Inv rf' y s' /\ near n xs (bound q c r k) y /\ rf_iter rf' = (rf_iter rf + k)%nat /\
    (k <= left)%nat /\ ((k < left)%nat -> amax (E y) <= tol) /\
    forall K, (K <= left)%nat -> lam * bound q c r K <= tol -> (k <= K)%nat /\ amax (E y) <= tol.
Proof.
  induction left as [|left IH]; intros fuel rf s x r LF I Pr Nx HN;
    (destruct fuel as [|fuel]; [lia|]); cbn [iterate]; destruct (HI rf x s I) as (HA & HV & HT & HM).
  - replace (Nat.ltb (rf_iter rf) (sp_max_iter (rf_parameters rf))) with false
      by (symmetry; apply Nat.ltb_ge; lia).
    rewrite andb_false_r; exists O, x, rf, s; cbn [bound].
    split; [reflexivity|]; split; [exact I|]; split; [exact Nx|].
    split; [lia|]; split; [lia|]; split; [lia|].
    intros K HK BK; assert (K = O) by lia; subst K; cbn [bound] in BK; split; [lia|].
    pose proof (Small x r Pr Nx); lra.
  - replace (Nat.ltb (rf_iter rf) (sp_max_iter (rf_parameters rf))) with true
      by (symmetry; apply Nat.ltb_lt; lia).
    rewrite andb_true_r; unfold ngtb; rewrite HT; cbn [nltb Num_XR xltb].
    destruct (Rltb tol (amax (E x))) eqn:T.
    + apply Rltb_true in T.
      destruct (HS rf x s r I Pr Nx T) as (rf1 & s1 & y1 & E1 & I1 & N1 & F1).
      rewrite E1; cbn [bind]; rewrite lift_amax.
      destruct (IH fuel rf1 s1 y1 (q * r + c) ltac:(lia) I1 (next_radius r Pr) N1 ltac:(lia))
        as (k & y & rf' & s' & E2 & I2 & N2 & F2 & B1 & B2 & B3).
      exists (S k), y, rf', s'; rewrite E2; split; [reflexivity|]; split; [exact I2|].
      rewrite <- bound_step; split; [exact N2|]; split; [lia|]; split; [lia|].
      split; [intros; apply B2; lia|]; intros [|K] HK BK.
      * cbn [bound] in BK; pose proof (Small x r Pr Nx); lra.
      * rewrite <- bound_step in BK; destruct (B3 K ltac:(lia) BK); split; [lia|assumption].
    + apply Rltb_false in T; exists O, x, rf, s; cbn [bound].
      split; [reflexivity|]; split; [exact I|]; split; [exact Nx|].
      split; [lia|]; split; [lia|]; split; [intros; exact T|]; intros; split; [lia|exact T].
Qed.

Lemma drawn_solve rf s x0 : rf_debug rf = false -> rf_residuals_config rf = conf ->
  rf_iter rf = O -> rf_initial_guess rf = lift x0 -> D x0 -> Good s ->
  (forall s1, at_point x0 s1 -> Inv rf x0 s1) -> 0 <= rho -> near n xs rho x0 ->
  exists rf' s' y, get_iteratives M s' = lift y /\ D y /\
    near n xs (bound q c rho (rf_iter rf')) y /\ (rf_iter rf' <= maxit)%nat /\
    (solve M rf s = Ret (rf', s', Ok tt) /\ amax (E y) <= tol \/
     solve M rf s = Ret (rf', s', Err NonConvergenceError) /\ amax (E y) > tol /\
     rf_iter rf' = maxit) /\
    forall K, (K <= maxit)%nat -> lam * bound q c rho K <= tol ->
      solve M rf s = Ret (rf', s', Ok tt) /\ (rf_iter rf' <= K)%nat.
Proof.
  intros ND HC H0 HG Dx Gs I0 P0 Nx.
  destruct (wb_eval _ _ _ _ _ _ _ _ _ WB s x0 Gs Dx (proj1 Nx)) as (s1 & E1 & P1).
  specialize (I0 s1 P1); destruct (HI _ _ _ I0) as (_ & HV & HT & HM).
  destruct (drawn_iterate maxit (S maxit) rf s1 x0 rho ltac:(lia) I0 ltac:(lra) Nx ltac:(lia))
    as (k & y & rf' & s' & E2 & I2 & N2 & F2 & B1 & B2 & B3).
  rewrite H0 in F2; cbn [plus] in F2; subst k.
  destruct (HI _ _ _ I2) as (A2 & HV2 & HT2 & HM2).
  assert (SO : solve M rf s = Ret (rf', s', if Rltb tol (amax (E y)) then Err NonConvergenceError else Ok tt)).
  { unfold solve; rewrite HG, E1; cbn [bind]; unfold solve_from.
    rewrite (errors_at M n conf Good D L Rg U E WB rf x0 s1 HC P1); cbn [bind].
    unfold when_debug; rewrite ND; cbn [bind]; rewrite lift_amax, HM, E2; cbn [bind].
    unfold verdict, ngtb; rewrite HT2, HV2; reflexivity. }
  exists rf', s', y; split; [apply A2|]; split; [apply A2|]; split; [exact N2|]; split; [exact B1|].
  destruct (Rltb tol (amax (E y))) eqn:T.
  - apply Rltb_true in T; split.
    + right; split; [exact SO|]; split; [lra|].
      destruct (Nat.eq_dec (rf_iter rf') maxit) as [|NE]; [assumption|].
      specialize (B2 ltac:(lia)); lra.
    + intros K HK BK; destruct (B3 K HK BK); lra.
  - apply Rltb_false in T; split; [left; auto|].
    intros K HK BK; destruct (B3 K HK BK); auto.
Qed.
End Damped.
