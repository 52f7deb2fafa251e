(** Exact real arithmetic: C28 (the derivative of the normalised residuals) and
    C44 (their size). *)
From Coq Require Import Reals Lra.
From Verif Require Import Base Num Linalg Residuals Spec RNum ResidualFacts.
Open Scope R_scope.

(** ** C28 *)
Lemma n2_R : (n2 : R) = 2.
Proof. reflexivity. Qed.

Lemma abs_derivative f t f' : derivable_pt_lim f t f' -> f t <> 0 ->
  derivable_pt_lim (fun u => Rabs (f u)) t (f' * Rsignum (f t)).
Proof.
  intros D N; unfold Rsignum.
  destruct (Rlt_dec (f t) 0) as [L|L].
  - rewrite Rmult_comm; apply (derivable_pt_lim_comp f Rabs t f' (-1) D), Rabs_derive_2, L.
  - rewrite Rmult_comm; apply (derivable_pt_lim_comp f Rabs t f' 1 D), Rabs_derive_1; lra.
Qed.

Lemma abs_signum x : Rabs x = x * Rsignum x.
Proof. unfold Rsignum, Rabs; destruct (Rcase_abs x), (Rlt_dec x 0); lra. Qed.
Lemma signum_square x : Rsignum x * Rsignum x = 1.
Proof. unfold Rsignum; destruct (Rlt_dec x 0); lra. Qed.
Lemma signum_half x : Rsignum (x / 2) = Rsignum x.
Proof. unfold Rsignum; destruct (Rlt_dec (x / 2) 0), (Rlt_dec x 0); lra. Qed.

Theorem C28_derivative : forall (x y : R -> R) t x' y' m,
  derivable_pt_lim x t x' -> derivable_pt_lim y t y' ->
  (m = Abs \/ x t + y t <> 0) ->
  derivable_pt_lim (fun u => residual m (x u) (y u)) t
    (deriv_normalization (x t) (y t) x' y' m).
Proof.
  intros x y t x' y' m Dx Dy C.
  pose proof (derivable_pt_lim_minus x y t x' y' Dx Dy) as DM.
  pose proof (derivable_pt_lim_plus x y t x' y' Dx Dy) as DP.
  destruct m; cbn [residual deriv_normalization].
  - exact DM.
  - destruct C as [C|C]; [discriminate|].
    change (derivable_pt_lim (fun u => (x u - y u) / (Rabs (x u + y u) / 2)) t
      (2 * ((x' - y') * Rabs (x t + y t) - (x' + y') * (x t - y t) * Rsignum (x t + y t))
       / ((x t + y t) * (x t + y t)))).
    pose proof (abs_derivative (fun u => x u + y u) t _ DP C) as DA.
    assert (DD : derivable_pt_lim (fun u => Rabs (x u + y u) / 2) t
                   ((x' + y') * Rsignum (x t + y t) / 2)).
    { unfold Rdiv; rewrite (Rmult_comm _ (/ 2)).
      apply (derivable_pt_lim_ext (mult_real_fct (/ 2) (fun u => Rabs (x u + y u)))).
      - intros u; unfold mult_real_fct; ring.
      - apply derivable_pt_lim_scal, DA. }
    assert (NZ : Rabs (x t + y t) / 2 <> 0) by (pose proof (Rabs_pos_lt _ C); lra).
    pose proof (derivable_pt_lim_div _ _ t _ _ DM DD NZ) as Q.
    unfold div_fct, minus_fct, Rsqr in Q; cbn beta in Q.
    match type of Q with derivable_pt_lim _ _ ?l => match goal with
      |- derivable_pt_lim _ _ ?r => replace r with l; [exact Q|] end end.
    rewrite !abs_signum; set (s := x t + y t) in *; pose proof (signum_square s) as SS.
    assert (SN : Rsignum s <> 0) by (intro E; rewrite E in SS; lra).
    assert (IV : / Rsignum s = Rsignum s) by (apply (Rmult_eq_reg_l (Rsignum s)); [rewrite Rinv_r; auto|exact SN]).
    transitivity ((((x' - y') * (s * Rsignum s / 2) - (x' + y') * Rsignum s / 2 * (x t - y t)) * 4
                  / (s * s)) * (/ Rsignum s * / Rsignum s)).
    { field; auto. }
    rewrite IV, SS; field; exact C.
  - destruct C as [C|C]; [discriminate|].
    change (derivable_pt_lim (fun u => (x u - y u) / (1 + Rabs (x u + y u) / 2)) t
      (((x' - y') * (1 + Rabs ((x t + y t) / 2)) - (x' + y') / 2 * Rsignum ((x t + y t) / 2) * (x t - y t))
       / ((1 + Rabs ((x t + y t) / 2)) * (1 + Rabs ((x t + y t) / 2))))).
    pose proof (abs_derivative (fun u => x u + y u) t _ DP C) as DA.
    assert (DD : derivable_pt_lim (fun u => 1 + Rabs (x u + y u) / 2) t
                   ((x' + y') * Rsignum (x t + y t) / 2)).
    { apply (derivable_pt_lim_ext (fct_cte 1 + mult_real_fct (/ 2) (fun u => Rabs (x u + y u)))%F).
      - intros u; unfold plus_fct, fct_cte, mult_real_fct; lra.
      - replace ((x' + y') * Rsignum (x t + y t) / 2)
          with (0 + / 2 * ((x' + y') * Rsignum (x t + y t))) by lra.
        apply derivable_pt_lim_plus; [apply derivable_pt_lim_const|].
        apply derivable_pt_lim_scal, DA. }
    assert (NZ : 1 + Rabs (x t + y t) / 2 <> 0) by (pose proof (Rabs_pos (x t + y t)); lra).
    pose proof (derivable_pt_lim_div _ _ t _ _ DM DD NZ) as Q.
    unfold div_fct, minus_fct, Rsqr in Q; cbn beta in Q.
    match type of Q with derivable_pt_lim _ _ ?l => match goal with
      |- derivable_pt_lim _ _ ?r => replace r with l; [exact Q|] end end.
    rewrite signum_half; replace (Rabs ((x t + y t) / 2)) with (Rabs (x t + y t) / 2).
    + field; lra.
    + unfold Rdiv; rewrite Rabs_mult, (Rabs_pos_eq (/ 2)) by lra; reflexivity.
Qed.
Print Assumptions C28_derivative.

(** The matrix given to the solver: entry [(i,j)] is the derivative of the
    normalised equation [i] when the two members move with the speeds
    [jv_left i j] and [jv_right i j] (the partial derivatives in [x_j]). *)
Lemma normalize_rows_entries n : forall (L Rr A : mat R) left right methods,
  normalize_rows n L Rr left right methods = Ret A ->
  forall i dl dr, nth_error L i = Some dl -> nth_error Rr i = Some dr ->
  length dr = length dl ->
  exists x y m row, nth_error left i = Some x /\ nth_error right i = Some y /\
    nth_error methods i = Some m /\ nth_error A i = Some row /\
    forall j a b, nth_error dl j = Some a -> nth_error dr j = Some b ->
      nth_error row j = Some (deriv_normalization x y a b m).
Proof.
  induction L as [|d0 L IH]; intros Rr A left right methods E i dl dr E1 E2 LD; [destruct i; discriminate|].
  destruct Rr as [|r0 Rr]; [destruct i; discriminate|].
  cbn [normalize_rows] in E.
  destruct left as [|x left]; [discriminate|]; destruct right as [|y right]; [discriminate|].
  destruct methods as [|m methods]; [discriminate|].
  destruct (normalize_rows n L Rr left right methods) as [rest|p] eqn:ER; [|discriminate].
  cbn [bind] in E; injection E as <-.
  destruct i as [|i]; cbn [nth_error] in *.
  - injection E1 as ->; injection E2 as ->; exists x, y, m; eexists; repeat split.
    intros j a b Ea Eb.
    rewrite nth_error_app1.
    + clear - Ea Eb; revert j dr Ea Eb; induction dl as [|c dl IH]; intros [|j] [|d dr] Ea Eb;
        cbn in *; try discriminate.
      * congruence.
      * apply IH; assumption.
    + rewrite map2_length by (symmetry; exact LD); apply nth_error_Some; congruence.
  - exact (IH _ _ _ _ _ ER i dl dr E1 E2 LD).
Qed.

Theorem C28_matrix : forall (jv : jacobian_values R) v methods A i j dl dr a' b' m (a b : R -> R) t,
  normalize jv v methods = Ret A ->
  nth_error (jv_left jv) i = Some dl -> nth_error (jv_right jv) i = Some dr ->
  length dr = length dl -> nth_error dl j = Some a' -> nth_error dr j = Some b' ->
  equation methods v i m (a t) (b t) ->
  derivable_pt_lim a t a' -> derivable_pt_lim b t b' ->
  (m = Abs \/ a t + b t <> 0) ->
  exists row r, nth_error A i = Some row /\ nth_error row j = Some r /\
    derivable_pt_lim (fun u => residual m (a u) (b u)) t r.
Proof.
  intros jv v methods A i j dl dr a' b' m a b t E E1 E2 LD Ea Eb (Q1 & Q2 & Q3) Da Db C.
  destruct (normalize_rows_entries _ _ _ _ _ _ _ E i dl dr E1 E2 LD) as (x & y & m0 & row & A1 & A2 & A3 & A4 & K).
  assert (x = a t) as -> by congruence; assert (y = b t) as -> by congruence.
  assert (m0 = m) as -> by congruence.
  eexists row, _; split; [exact A4|]; split; [exact (K j _ _ Ea Eb)|].
  apply C28_derivative; assumption.
Qed.
Print Assumptions C28_matrix.

(** The members [u^2] and [-3u] at [u = 1], whose sum is negative: the relative
    residual is [2 (u + 3) / (3 - u)] there, with the derivative 3. *)
Example C28_case : derivable_pt_lim (fun u => residual Rel (u * u) (-3 * u)) 1 3.
Proof.
  assert (D1 : derivable_pt_lim (fun u => u * u) 1 2).
  { pose proof (derivable_pt_lim_mult id id 1 1 1 (derivable_pt_lim_id 1) (derivable_pt_lim_id 1)) as Q.
    unfold mult_fct, id in Q; replace 2 with (1 * 1 + 1 * 1) by lra; exact Q. }
  assert (D2 : derivable_pt_lim (fun u => -3 * u) 1 (-3)).
  { pose proof (derivable_pt_lim_scal id (-3) 1 1 (derivable_pt_lim_id 1)) as Q.
    unfold mult_real_fct, id in Q; assert (E : -3 * 1 = -3) by lra; rewrite E in Q; exact Q. }
  pose proof (C28_derivative (fun u => u * u) (fun u => -3 * u) 1 2 (-3) Rel D1 D2 ltac:(right; lra)) as Q.
  cbn beta in Q.
  match type of Q with derivable_pt_lim _ _ ?l => match goal with
    |- derivable_pt_lim _ _ ?r => replace r with l; [exact Q|] end end.
  cbn [deriv_normalization nsub nadd nmul ndiv nabs nsignum nsq Num_R]; rewrite n2_R; unfold nsq; cbn [nmul Num_R].
  rewrite (abs_signum); unfold Rsignum; destruct (Rlt_dec _ 0) as [L|L]; lra.
Qed.

(** ** C44 *)
Theorem C44_sizes : forall x y : R,
  Rabs (residual Adapt x y) <= Rabs (residual Abs x y) /\
  (x + y <> 0 -> Rabs (residual Adapt x y) <= Rabs (residual Rel x y)) /\
  (x + y <> 0 -> (0 <= x /\ 0 <= y \/ x <= 0 /\ y <= 0) -> Rabs (residual Rel x y) <= 2) /\
  ((0 <= x /\ 0 <= y \/ x <= 0 /\ y <= 0) -> Rabs (residual Adapt x y) < 2).
Proof.
  intros x y.
  change (residual Adapt x y) with ((x - y) / (1 + Rabs (x + y) / 2)).
  change (residual Rel x y) with ((x - y) / (Rabs (x + y) / 2)).
  change (residual Abs x y) with (x - y).
  pose proof (Rabs_pos (x + y)) as P.
  assert (DIV : forall a b, 0 < b -> Rabs (a / b) = Rabs a / b).
  { intros a b H; unfold Rdiv; rewrite Rabs_mult, Rabs_inv, (Rabs_pos_eq b) by lra; reflexivity. }
  assert (LE : forall a b c, 0 <= a -> 0 < b -> b <= c -> a / c <= a / b).
  { intros a b c H1 H2 H3; unfold Rdiv; apply Rmult_le_compat_l; [exact H1|]; apply Rinv_le_contravar; lra. }
  pose proof (Rabs_pos (x - y)) as P2.
  split; [|split; [|split]].
  - rewrite DIV by lra; replace (Rabs (x - y)) with (Rabs (x - y) / 1) at 2 by field.
    apply LE; lra.
  - intros N; pose proof (Rabs_pos_lt _ N); rewrite !DIV by lra; apply LE; lra.
  - intros N S; pose proof (Rabs_pos_lt _ N); rewrite DIV by lra.
    apply Rmult_le_reg_r with (Rabs (x + y) / 2); [lra|].
    unfold Rdiv at 1; rewrite Rmult_assoc, Rinv_l, Rmult_1_r by lra.
    unfold Rabs; destruct (Rcase_abs (x - y)), (Rcase_abs (x + y)); lra.
  - intros S; rewrite DIV by lra.
    apply Rmult_lt_reg_r with (1 + Rabs (x + y) / 2); [lra|].
    unfold Rdiv at 1; rewrite Rmult_assoc, Rinv_l, Rmult_1_r by lra.
    unfold Rabs; destruct (Rcase_abs (x - y)), (Rcase_abs (x + y)); lra.
Qed.
Print Assumptions C44_sizes.

(** The bounds are reached or approached: [Rel] of [(3, 0)] is 2; with opposite
    signs there is no bound ([Rel] of [(3, -1)] is 4). *)
Example C44_case : residual Rel 3 0 = 2 /\ residual Rel 3 (-1) = 4 /\ residual Adapt 3 1 = 2 / 3 /\
  residual Abs 3 1 = 2.
Proof.
  change (residual Rel 3 0) with ((3 - 0) / (Rabs (3 + 0) / 2)).
  change (residual Rel 3 (-1)) with ((3 - -1) / (Rabs (3 + -1) / 2)).
  change (residual Adapt 3 1) with ((3 - 1) / (1 + Rabs (3 + 1) / 2)).
  change (residual Abs 3 1) with (3 - 1).
  rewrite !Rabs_pos_eq by lra; lra.
Qed.
