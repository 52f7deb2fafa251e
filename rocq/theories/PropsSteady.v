(** C94: where the slopes change little around the guess, the residuals at the
    guess promise convergence, for Newton-Raphson with analytical jacobians and
    with finite differences and for the stationary method. *)
From Coq Require Import Reals Lra.
From Verif Require Import Base Num Linalg Residuals Iteratives UserModel Jacobian Solver
  RNum LuFacts XR PropsQuasi PropsFD ExactFacts ExactRun PropsExact Util1d Props1d LocalFacts
  QuasiRun DampedRun TestCases PropsLocal PropsHalving PropsKantorovich PropsDistance.
Open Scope R_scope.

(** A sequence whose steps are halved converges. *)
Lemma halved_limit n (u : nat -> vec R) c : length (u O) = n -> 0 <= c ->
  (forall k, near n (u k) ((1 / 2) ^ k * c) (u (S k))) ->
  exists xs, forall k, near n (u k) (2 * ((1 / 2) ^ k * c)) xs.
Proof.
  intros L0 Pc ST.
  assert (LN : forall k, length (u k) = n) by (intros [|k]; [exact L0|apply (ST k)]).
  assert (PW : forall k, 0 <= (1 / 2) ^ k) by (intros k; apply pow_le; lra).
  assert (NR : forall k m, near n (u k) (2 * ((1 / 2) ^ k * c) - 2 * ((1 / 2) ^ (k + m) * c)) (u (k + m)%nat)).
  { intros k; induction m as [|m IH].
    - rewrite Nat.add_0_r; apply near_le with 0; [lra|apply near_refl, LN].
    - rewrite Nat.add_succ_r; apply near_le with
        (2 * ((1 / 2) ^ k * c) - 2 * ((1 / 2) ^ (k + m) * c) + (1 / 2) ^ (k + m) * c).
      + cbn [pow]; lra.
      + apply near_trans with (u (k + m)%nat); [exact IH|apply ST]. }
  assert (CL : forall k m i, (i < n)%nat -> Rabs (vent (u (k + m)%nat) i - vent (u k) i) <= 2 * ((1 / 2) ^ k * c)).
  { intros k m i Hi; eapply Rle_trans; [apply (proj2 (NR k m) i Hi)|].
    assert (0 <= (1 / 2) ^ (k + m) * c) by (apply Rmult_le_pos; auto); lra. }
  assert (CC : forall i, (i < n)%nat -> Cauchy_crit (fun k => vent (u k) i)).
  { intros i Hi eps Pe; destruct (pow_reaches (1 / 2) (2 * c) (eps / 4)) as [k Hk]; try lra.
    specialize (Hk k (Nat.le_refl _)); exists k; intros p q Gp Gq; unfold R_dist.
    assert (Q : forall p, (p >= k)%nat -> Rabs (vent (u p) i - vent (u k) i) < eps / 2).
    { intros r Gr; replace r with (k + (r - k))%nat by lia.
      eapply Rle_lt_trans; [apply CL; exact Hi|lra]. }
    assert (Q1 := Q p Gp); assert (Q2 := Q q Gq); rewrite Rabs_minus_sym in Q2.
    replace (vent (u p) i - vent (u q) i)
      with ((vent (u p) i - vent (u k) i) + (vent (u k) i - vent (u q) i)) by ring.
    eapply Rle_lt_trans; [apply Rabs_triang|]; lra. }
  assert (EL : forall i, exists l, (i < n)%nat -> Un_cv (fun k => vent (u k) i) l).
  { intros i; destruct (Nat.lt_ge_cases i n) as [Hi|Hi].
    - destruct (R_complete _ (CC i Hi)) as [l Hl]; exists l; intros _; exact Hl.
    - exists 0; intros; lia. }
  assert (EX : forall m, (m <= n)%nat -> exists xs, length xs = m /\
    forall i, (i < m)%nat -> Un_cv (fun k => vent (u k) i) (vent xs i)).
  { induction m as [|m IH]; intros Lm.
    - exists []; split; [reflexivity|intros; lia].
    - destruct (IH ltac:(lia)) as (xs & Lx & CV); destruct (EL m) as [l Hl].
      exists (xs ++ [l])%list; split; [rewrite app_length, Lx; cbn; lia|].
      intros i Hi; unfold vent at 2; destruct (Nat.eq_dec i m) as [->|Ne].
      + rewrite app_nth2, Lx, Nat.sub_diag by lia; cbn [nth]; apply Hl; lia.
      + rewrite app_nth1 by lia; apply CV; lia. }
  destruct (EX n (Nat.le_refl _)) as (xs & Lx & CV); exists xs; intros k; split; [exact Lx|].
  intros i Hi; apply le_epsilon; intros eps Pe; destruct (CV i Hi eps Pe) as [N HN].
  specialize (HN (k + N)%nat ltac:(lia)); unfold R_dist in HN; rewrite Rabs_minus_sym in HN.
  replace (vent xs i - vent (u k) i)
    with ((vent (u (k + N)%nat) i - vent (u k) i) + (vent xs i - vent (u (k + N)%nat) i)) by ring.
  eapply Rle_trans; [apply Rabs_triang|]; apply Rplus_le_compat; [apply CL; exact Hi|lra].
Qed.

Lemma amax_bound n v i : length v = n -> (i < n)%nat -> Rabs (vent v i) <= amax v.
Proof.
  intros Lv Hi; apply (proj1 (amax_le v (amax v) (amax_nonneg _))); [lra|rewrite Lv; exact Hi].
Qed.

Section Chord.
Context (n : nat) (f : vec R -> vec R) (J : vec R -> mat R) (A : mat R) (x0 : vec R) (rho e b r : R).

(** What is asked of the guess: slopes which change by [e] at most within [rho],
    and residuals which are small enough. *)
Record steady_guess : Prop := {
  sg_steady : steady n f J A x0 rho e b;
  sg_small : b * (INR n * e) <= 1 / 5;
  sg_len : length x0 = n;
  sg_fun : forall x, near n x0 rho x -> length (f x) = n;
  sg_mat : square n A;
  sg_radius : r <= rho;
  sg_start : 5 / 2 * b * amax (f x0) <= r
}.
Context (G : steady_guess).

Definition on_the_way (x : vec R) : Prop := near n x0 (r - 5 / 2 * b * amax (f x)) x.
Definition close_to (B : mat R) : Prop := square n B /\
  forall i j, (i < n)%nat -> (j < n)%nat -> Rabs (ment A i j - ment B i j) <= e.

Lemma sg_pos : 0 <= b /\ 0 <= e.
Proof. exact (sd_pos _ _ _ _ _ _ _ _ (sg_steady G)). Qed.
Lemma way_r x : on_the_way x -> near n x0 r x.
Proof.
  destruct sg_pos as [Pb _]; apply near_le.
  assert (0 <= 5 / 2 * b * amax (f x)) by (apply Rmult_le_pos; [lra|apply amax_nonneg]); lra.
Qed.
Lemma way_rho x : on_the_way x -> near n x0 rho x.
Proof. intros W; apply near_le with r; [exact (sg_radius G)|apply way_r, W]. Qed.
Lemma guess_way : on_the_way x0.
Proof.
  unfold on_the_way; apply near_le with 0; [assert (X := sg_start G); lra|apply near_refl, (sg_len G)].
Qed.

Lemma close_below B : close_to B -> bounded_below n B (5 / 4 * b).
Proof.
  intros [SB CB]; destruct sg_pos as [Pb Pe]; assert (S5 := sg_small G).
  apply bounded_below_le with (b / (1 - b * (INR n * e))).
  - unfold Rdiv; rewrite (Rmult_comm (5 * / 4)); apply Rmult_le_compat_l; [exact Pb|].
    replace (5 * / 4) with (/ (4 / 5)) by field; apply Rinv_le_contravar; lra.
  - apply (bounded_below_perturbed n A B b e); try assumption; [lra|apply (sd_regular _ _ _ _ _ _ _ _ (sg_steady G))|].
    intros i j Hi Hj; rewrite Rabs_minus_sym; apply CB; assumption.
Qed.
Lemma close_inverts B : close_to B -> exists H, lu_inverse B = Some H /\ square n H /\ inverse_of n B H.
Proof. intros C; apply (bounded_below_inverts n B (5 / 4 * b)); [apply C|apply close_below, C]. Qed.

(** One step from a point on the way. *)
Lemma chord_step x B H : on_the_way x -> close_to B -> lu_inverse B = Some H ->
  near n x (5 / 4 * b * amax (f x)) (newton_point f H x) /\
  amax (f (newton_point f H x)) <= 1 / 2 * amax (f x) /\ on_the_way (newton_point f H x).
Proof.
  intros W C EH; destruct sg_pos as [Pb Pe]; assert (S5 := sg_small G).
  destruct (close_inverts B C) as (H' & EH' & SH & IN).
  rewrite EH in EH'; injection EH' as <-.
  assert (DX := way_rho x W); assert (Lx : length x = n) by apply DX.
  assert (Lf := sg_fun G x DX); assert (PF := amax_nonneg (f x)).
  set (w := newton_point f H x).
  assert (Lw : length w = n) by (apply (newton_point_length n); assumption).
  assert (NW : near n x (5 / 4 * b * amax (f x)) w).
  { split; [exact Lw|]; intros i Hi; rewrite <- (ent_sub n) by assumption.
    apply (close_below B C (vsub_raw w x) (amax (f x))); [apply (len_sub n); assumption|exact PF| |exact Hi].
    intros k Hk; unfold w; rewrite (newton_equation n) by (try assumption; apply C).
    rewrite Rabs_Ropp; apply (amax_bound n); assumption. }
  assert (WR : near n x0 (r - 5 / 4 * b * amax (f x)) w).
  { apply near_le with ((r - 5 / 2 * b * amax (f x)) + 5 / 4 * b * amax (f x)); [lra|].
    apply near_trans with x; assumption. }
  assert (Pbf : 0 <= b * amax (f x)) by (apply Rmult_le_pos; assumption).
  assert (DW : near n x0 rho w) by (apply near_le with (2 := WR); assert (X := sg_radius G); lra).
  assert (Lfw := sg_fun G w DW).
  assert (HALF : amax (f w) <= 1 / 2 * amax (f x)).
  { apply amax_le; [lra|]; intros i Hi; rewrite Lfw in Hi.
    assert (T := slope_error n f J B x0 rho (2 * e) x w (5 / 4 * b * amax (f x))
      (sd_partials _ _ _ _ _ _ _ _ (sg_steady G))).
    assert (CL : forall y i j, near n x0 rho y -> (i < n)%nat -> (j < n)%nat ->
      Rabs (ment B i j - ment (J y) i j) <= 2 * e).
    { intros y k l Ny Hk Hl.
      assert (X1 := proj2 C k l Hk Hl).
      assert (X2 := sd_slopes _ _ _ _ _ _ _ _ (sg_steady G) y k l Ny Hk Hl).
      revert X1 X2; unfold Rabs; repeat destruct Rcase_abs; lra. }
    specialize (T CL DX DW NW i Hi); unfold w in T at 1.
    rewrite (newton_equation n) in T by (try assumption; apply C).
    replace (- vent (f x) i - (vent (f w) i - vent (f x) i)) with (- vent (f w) i) in T by ring.
    rewrite Rabs_Ropp in T; eapply Rle_trans; [exact T|].
    replace (INR n * (2 * e * (5 / 4 * b * amax (f x)))) with (5 / 2 * (b * (INR n * e)) * amax (f x)) by field.
    apply Rmult_le_compat_r; lra. }
  split; [exact NW|]; split; [exact HALF|].
  apply near_le with (2 := WR).
  assert (b * amax (f w) <= b * (1 / 2 * amax (f x))) by (apply Rmult_le_compat_l; assumption); lra.
Qed.

(** ** There is a root *)
Lemma root_exists : exists xs, near n x0 r xs /\ forall i, (i < n)%nat -> vent (f xs) i = 0.
Proof.
  destruct sg_pos as [Pb Pe].
  assert (CA : close_to A).
  { split; [apply (sg_mat G)|]; intros i j _ _; unfold Rminus; rewrite Rplus_opp_r, Rabs_R0; exact Pe. }
  destruct (close_inverts A CA) as (H & EH & SH & IN).
  set (u := fix u k := match k with O => x0 | S k' => newton_point f H (u k') end).
  assert (INV : forall k, on_the_way (u k) /\ amax (f (u k)) <= (1 / 2) ^ k * amax (f x0)).
  { induction k as [|k [W F]]; [split; [exact guess_way|cbn; lra]|].
    destruct (chord_step (u k) A H W CA EH) as (_ & F1 & W1).
    split; [exact W1|]; change (u (S k)) with (newton_point f H (u k)); cbn [pow]; lra. }
  set (c := 5 / 4 * b * amax (f x0)).
  assert (Pc : 0 <= c) by (apply Rmult_le_pos; [lra|apply amax_nonneg]).
  destruct (halved_limit n u c (sg_len G) Pc) as (xs & NX).
  { intros k; destruct (INV k) as [W F]; destruct (chord_step (u k) A H W CA EH) as (N & _ & _).
    apply near_le with (2 := N); unfold c.
    replace ((1 / 2) ^ k * (5 / 4 * b * amax (f x0))) with (5 / 4 * b * ((1 / 2) ^ k * amax (f x0))) by ring.
    apply Rmult_le_compat_l; [lra|exact F]. }
  exists xs.
  assert (DXS : near n x0 r xs).
  { apply near_le with (2 := NX O); cbn [pow]; unfold c; assert (X := sg_start G); lra. }
  split; [exact DXS|]; intros i Hi.
  assert (DX : near n x0 rho xs) by (apply near_le with r; [exact (sg_radius G)|exact DXS]).
  set (S := rsum n (fun j => Rabs (ment A i j))).
  assert (PN := pos_INR n).
  assert (PS : 0 <= S).
  { unfold S; replace 0 with (rsum n (fun _ => 0)) by (rewrite rsum_const; ring).
    apply rsum_le; intros; apply Rabs_pos. }
  assert (PNe : 0 <= INR n * e) by (apply Rmult_le_pos; assumption).
  set (T := (S + INR n * e) * (2 * c) + amax (f x0)).
  assert (PT : 0 <= T).
  { unfold T; assert (0 <= (S + INR n * e) * (2 * c)) by (apply Rmult_le_pos; lra).
    assert (X := amax_nonneg (f x0)); lra. }
  assert (BND : forall k, Rabs (vent (f xs) i) <= T * (1 / 2) ^ k).
  { intros k; destruct (INV k) as [W F]; assert (DU := way_rho _ W).
    assert (NK := NX k); set (d := 2 * ((1 / 2) ^ k * c)) in *.
    assert (Pd : 0 <= d) by (unfold d; assert (X := pow_le (1 / 2) k ltac:(lra));
      assert (0 <= (1 / 2) ^ k * c) by (apply Rmult_le_pos; assumption); lra).
    assert (E1 := slope_error n f J A x0 rho e (u k) xs d (sd_partials _ _ _ _ _ _ _ _ (sg_steady G))
      (sd_slopes _ _ _ _ _ _ _ _ (sg_steady G)) DU DX NK i Hi).
    assert (Lu : length (u k) = n) by apply DU; assert (Lxs : length xs = n) by apply DX.
    assert (E2 : Rabs (app n A (vsub_raw xs (u k)) i) <= S * d).
    { unfold app; eapply Rle_trans; [apply rsum_abs|].
      unfold S; rewrite <- rsum_scal_r; apply rsum_le; intros j Hj.
      rewrite Rabs_mult; apply Rmult_le_compat_l; [apply Rabs_pos|].
      rewrite (ent_sub n) by assumption; apply NK; exact Hj. }
    assert (E3 := amax_bound n (f (u k)) i (sg_fun G _ DU) Hi).
    replace (T * (1 / 2) ^ k) with ((S + INR n * e) * d + (1 / 2) ^ k * amax (f x0))
      by (unfold T, d; ring).
    replace (INR n * (e * d)) with (INR n * e * d) in E1 by ring.
    revert E1 E2 E3; unfold Rabs; repeat destruct Rcase_abs; lra. }
  destruct (Req_dec (vent (f xs) i) 0) as [E|E]; [exact E|exfalso].
  apply Rabs_pos_lt in E.
  destruct (pow_reaches (1 / 2) T (Rabs (vent (f xs) i) / 2)) as [k Hk]; try lra.
  specialize (Hk k (Nat.le_refl _)); specialize (BND k); lra.
Qed.

(** ** The run *)
Context (K : vec R -> mat R) (HK : forall x, near n x0 r x -> close_to (K x))
  (U : vec R -> vec R) (HU : forall x, near n x0 rho x -> U x = f x).

Lemma way_point x H : on_the_way x -> newton_point U H x = newton_point f H x.
Proof. intros W; unfold newton_point; rewrite HU by (apply way_rho, W); reflexivity. Qed.

Lemma chord_run tol : forall budget x, on_the_way x -> exists k y,
  newton_run K U (fun x => amax (vabs (U x))) (Fin tol) budget x = (k, y, false) /\
  on_the_way y /\ amax (f y) <= (1 / 2) ^ k * amax (f x) /\ (k <= budget)%nat /\
  ((k < budget)%nat -> amax (f y) <= tol) /\
  forall m, (m <= budget)%nat -> (1 / 2) ^ m * amax (f x) <= tol -> (k <= m)%nat /\ amax (f y) <= tol.
Proof.
  induction budget as [|budget IH]; intros x W; cbn [newton_run].
  - exists O, x; cbn [pow]; split; [reflexivity|]; split; [exact W|]; split; [lra|].
    split; [lia|]; split; [lia|]; intros m Lm Tm; split; [lia|].
    assert (m = O) by lia; subst m; cbn [pow] in *; lra.
  - rewrite amax_vabs, (HU x (way_rho x W)); cbn [xltb].
    destruct (Rltb tol (amax (f x))) eqn:T.
    + apply Rltb_true in T.
      destruct (close_inverts (K x) (HK x (way_r x W))) as (H & EH & _); rewrite EH.
      rewrite way_point by exact W.
      destruct (chord_step x (K x) H W (HK x (way_r x W)) EH) as (_ & F1 & W1).
      destruct (IH _ W1) as (k & y & -> & WY & FY & LY & T1 & T2).
      exists (S k), y; split; [reflexivity|]; split; [exact WY|]; split.
      { cbn [pow]; assert (X := pow_le (1 / 2) k ltac:(lra)).
        apply Rle_trans with (1 := FY).
        replace (1 / 2 * (1 / 2) ^ k * amax (f x)) with ((1 / 2) ^ k * (1 / 2 * amax (f x))) by ring.
        apply Rmult_le_compat_l; assumption. }
      split; [lia|]; split; [intros; apply T1; lia|].
      intros m Lm Tm; destruct m as [|m]; [cbn [pow] in Tm; lra|].
      destruct (T2 m ltac:(lia)) as [Q1 Q2].
      { cbn [pow] in Tm; assert (X := pow_le (1 / 2) m ltac:(lra)).
        apply Rle_trans with (2 := Tm).
        replace (1 / 2 * (1 / 2) ^ m * amax (f x)) with ((1 / 2) ^ m * (1 / 2 * amax (f x))) by ring.
        apply Rmult_le_compat_l; assumption. }
      split; [lia|exact Q2].
    + apply Rltb_false in T; exists O, x; cbn [pow]; split; [reflexivity|]; split; [exact W|].
      split; [lra|]; split; [lia|]; split; [intros; exact T|]; intros; split; [lia|exact T].
Qed.
End Chord.

Definition root_in (n : nat) (f : vec R -> vec R) (x0 : vec R) (rho : R) (xs : vec R) : Prop :=
  forall z, near n x0 rho z -> (forall i, (i < n)%nat -> vent (f z) i = 0) <-> z = xs.

(** There is exactly one root around such a guess. *)
Theorem C94_root : forall n f J A x0 rho e b r, steady_guess n f J A x0 rho e b r ->
  exists xs, near n x0 r xs /\ root_in n f x0 rho xs.
Proof.
  intros n f J A x0 rho e b r G; destruct (root_exists n f J A x0 rho e b r G) as (xs & N & Z).
  assert (DX : near n x0 rho xs) by (apply near_le with r; [exact (sg_radius _ _ _ _ _ _ _ _ _ G)|exact N]).
  exists xs; split; [exact N|]; intros z Nz; split.
  - intros Zz; exact (C92_one_root n f J A x0 rho e b z xs (sg_steady _ _ _ _ _ _ _ _ _ G) Nz DX Zz Z).
  - intros ->; exact Z.
Qed.
Print Assumptions C94_root.

(** What the guess promises about the outcome [o] of a resolution. *)
Definition promised {EI EU} (n : nat) (f : vec R -> vec R) (x0 xs : vec R) (r b tol : R) (maxit : nat)
  (o : outcome (rootfinder XR * user_model XR * result unit (solver_error EI EU))) : Prop :=
  exists rf' s' y,
    um_inputs s' = lift y /\ near n x0 r y /\ near n xs (5 / 4 * b * amax (f y)) y /\
    amax (f y) <= (1 / 2) ^ rf_iter rf' * amax (f x0) /\ (rf_iter rf' <= maxit)%nat /\
    (o = Ret (rf', s', Ok tt) /\ (forall i, (i < n)%nat -> Rabs (vent (f y) i) <= tol) \/
     o = Ret (rf', s', Err NonConvergenceError) /\ rf_iter rf' = maxit /\ amax (f y) > tol) /\
    forall k, (k <= maxit)%nat -> (1 / 2) ^ k * amax (f x0) <= tol ->
      o = Ret (rf', s', Ok tt) /\ (rf_iter rf' <= k)%nat.

Section Promise.
Context (n : nat) (f : vec R -> vec R) (J : vec R -> mat R) (A : mat R) (x0 : vec R) (rho e b r : R)
  (G : steady_guess n f J A x0 rho e b r) (xs : vec R) (NX : near n x0 r xs) (RX : root_in n f x0 rho xs).

Lemma pack_promise {EI EU} (o : outcome (rootfinder XR * user_model XR * result unit (solver_error EI EU)))
  rf' s' k y (U : vec R -> vec R) tol maxit :
  U y = f y -> um_inputs s' = lift y ->
  o = Ret (rf', s', if xltb (Fin tol) (Fin (amax (vabs (U y)))) then Err NonConvergenceError else Ok tt) ->
  rf_iter rf' = k -> on_the_way n f x0 b r y -> amax (f y) <= (1 / 2) ^ k * amax (f x0) -> (k <= maxit)%nat ->
  ((k < maxit)%nat -> amax (f y) <= tol) ->
  (forall m, (m <= maxit)%nat -> (1 / 2) ^ m * amax (f x0) <= tol -> (k <= m)%nat /\ amax (f y) <= tol) ->
  promised n f x0 xs r b tol maxit o.
Proof.
  intros EY EI' HO EK W FY LK T1 T2; rewrite amax_vabs, EY in HO; cbn [xltb] in HO.
  assert (DY := way_rho _ _ _ _ _ _ _ _ _ G y W); assert (DR := way_r _ _ _ _ _ _ _ _ _ G y W).
  assert (DX : near n x0 rho xs) by (apply near_le with r; [exact (sg_radius _ _ _ _ _ _ _ _ _ G)|exact NX]).
  assert (Lf := sg_fun _ _ _ _ _ _ _ _ _ G y DY).
  destruct (sg_pos _ _ _ _ _ _ _ _ _ G) as [Pb Pe]; assert (S5 := sg_small _ _ _ _ _ _ _ _ _ G).
  exists rf', s', y; rewrite EK; split; [exact EI'|]; split; [exact DR|]; split.
  { apply near_le with (b / (1 - b * (INR n * e)) * amax (f y)).
    - apply Rmult_le_compat_r; [apply amax_nonneg|].
      unfold Rdiv; rewrite (Rmult_comm (5 * / 4)); apply Rmult_le_compat_l; [exact Pb|].
      replace (5 * / 4) with (/ (4 / 5)) by field; apply Rinv_le_contravar; lra.
    - apply (steady_distance n f J A x0 rho e b xs y); try assumption;
        [exact (sg_steady _ _ _ _ _ _ _ _ _ G)|apply amax_nonneg|].
      intros i Hi; rewrite (proj2 (RX xs DX) eq_refl i Hi), Rminus_0_r; apply (amax_bound n); assumption. }
  split; [exact FY|]; split; [exact LK|]; split.
  - destruct (Rltb tol (amax (f y))) eqn:T; [right|left]; (split; [exact HO|]).
    + apply Rltb_true in T; split; [|lra].
      destruct (Nat.lt_ge_cases k maxit) as [L|L]; [specialize (T1 L); lra|lia].
    + apply Rltb_false in T; intros i Hi; eapply Rle_trans; [apply (amax_bound n); eassumption|exact T].
  - intros m Lm Tm; destruct (T2 m Lm Tm) as [Q1 Q2]; split; [|exact Q1].
    replace (Rltb tol (amax (f y))) with false in HO; [exact HO|]; symmetry; apply Rltb_false; exact Q2.
Qed.

Context (func : vec XR -> vec XR) (Hf : forall x, near n x0 rho x -> func (lift x) = lift (f x)).
Notation D := (near n x0 rho).
Notation U := (residuals_of f (fun _ => vzeros n)).

Lemma promise_fun x : D x -> length x = n -> func (lift x) = lift (f x) /\ length (f x) = n.
Proof. intros Dx _; split; [apply Hf, Dx|exact (sg_fun _ _ _ _ _ _ _ _ _ G x Dx)]. Qed.
Lemma promise_residuals x : D x -> U x = f x.
Proof. intros N; apply residuals_of_zero; exact (sg_fun _ _ _ _ _ _ _ _ _ G x N). Qed.
End Promise.

(** Newton-Raphson with the jacobian written by the user, which may be wrong: it
    is enough that its entries are within [e] of those of [A]. *)
Theorem C94_newton : forall n func jac (f : vec R -> vec R) (J JA : vec R -> mat R) A x0 rho e b r,
  (forall x, near n x0 rho x -> func (lift x) = lift (f x)) ->
  (forall x, near n x0 rho x -> jac (lift x) = liftm (JA x) /\ square n (JA x) /\
    forall i j, (i < n)%nat -> (j < n)%nat -> Rabs (ment A i j - ment (JA x) i j) <= e) ->
  steady_guess n f J A x0 rho e b r ->
  exists xs, near n x0 r xs /\ root_in n f x0 rho xs /\
  forall tol maxit damping rf,
  rootfinder_new (mkSolverParameters n (Fin tol) maxit NewtonRaphson damping) (lift x0)
    (jac_iteratives n) (all_abs n) = Ret rf ->
  promised n f x0 xs r b tol maxit
    (solve (model_from_function_and_jacobian func jac) rf (user_model_new n)).
Proof.
  intros n func jac f J JA A x0 rho e b r Hf HJ G.
  destruct (C94_root n f J A x0 rho e b r G) as (xs & NX & RX); exists xs; split; [exact NX|]; split; [exact RX|].
  intros tol maxit damping rf HN; apply new_fields in HN.
  set (D := near n x0 rho).
  assert (Hf' := promise_fun n f J A x0 rho e b r G func Hf).
  assert (HJ' : forall x, D x -> length x = n -> jac (lift x) = liftm (JA x) /\ is_mat n (JA x))
    by (intros x Dx _; split; apply (HJ x Dx)).
  assert (FP := adapter_problem n D func f Hf' (fun _ => true) (um_get_jacobian jac)).
  assert (WB := abs_well_behaved _ n _ _ _ _ FP).
  assert (HA := adapter_analytic n D func f Hf' jac JA HJ').
  set (M := model_from_function_and_jacobian func jac) in *.
  assert (HU := promise_residuals n f J A x0 rho e b r G).
  set (U := residuals_of f (fun _ => vzeros n)) in *.
  set (P := on_the_way n f x0 b r).
  assert (PD : forall x, P x -> D x) by (intros x W; exact (way_rho _ _ _ _ _ _ _ _ _ G x W)).
  assert (CL : forall x, D x -> close_to n A e (JA x)) by (intros x Dx; split; apply (HJ x Dx)).
  assert (SOL := newton_solve M n (all_abs n) (adapter_good n) D f (fun _ => vzeros n) U
    (fun x => vabs (U x)) WB (jac_iteratives n) JA (fun x => x) (Fin tol) damping P).
  specialize (SOL ltac:(intros rf1 x s _ _ _; left; exists JA; auto)).
  assert (HP : forall x H, P x -> length x = n -> xltb (Fin tol) (Fin (amax (vabs (U x)))) = true ->
    lu_inverse (JA x) = Some H ->
    P (newton_point U H x) /\ D (newton_point U H x) /\
    (damping = true -> amax (vabs (U (newton_point U H x))) <= amax (vabs (U x)))).
  { intros x H W _ _ EH.
    rewrite (way_point _ _ _ _ _ _ _ _ _ G U HU x H W).
    destruct (chord_step _ _ _ _ _ _ _ _ _ G x (JA x) H W (CL x (PD x W)) EH) as (_ & F1 & W1).
    split; [exact W1|]; split; [exact (PD _ W1)|]; intros _; rewrite !amax_vabs, (HU _ (PD _ W)), (HU _ (PD _ W1)).
    assert (X := amax_nonneg (f x)); lra. }
  specialize (SOL HP rf (user_model_new n) x0).
  assert (NC : newton_config n (all_abs n) rf).
  { subst rf; repeat split; [apply default_jac_unlimited|].
    cbn [rf_iters_params]; unfold jac_iteratives, default_vec_iteratives.
    rewrite map_length, repeat_length; reflexivity. }
  assert (MI : sp_max_iter (rf_parameters rf) = maxit) by (subst rf; reflexivity).
  rewrite MI in SOL.
  assert (W0 := guess_way _ _ _ _ _ _ _ _ _ G).
  specialize (SOL NC ltac:(subst rf; reflexivity) ltac:(subst rf; reflexivity)
    ltac:(subst rf; reflexivity) ltac:(subst rf; reflexivity) ltac:(subst rf; reflexivity)
    ltac:(subst rf; reflexivity) (sg_len _ _ _ _ _ _ _ _ _ G) W0 (PD _ W0) (fresh_good n)).
  destruct (chord_run n f J A x0 rho e b r G JA
    (fun x N => CL x (near_le n x0 r rho x (sg_radius _ _ _ _ _ _ _ _ _ G) N)) U HU tol maxit x0 W0)
    as (k & y & ER & WY & Q); cbv beta in *.
  rewrite ER in SOL; destruct SOL as (rf' & s' & _ & SOL & SA & SI).
  destruct Q as (Q1 & Q2 & Q3 & Q4).
  apply (pack_promise n f J A x0 rho e b r G xs NX RX _ rf' s' k y U); [exact (HU _ (PD _ WY))|apply SA|assumption..].
Qed.
Print Assumptions C94_newton.

(** The stationary method: the matrix at the guess is kept. *)
Theorem C94_stationary : forall n func jac (f : vec R -> vec R) (J JA : vec R -> mat R) A x0 rho e b r,
  (forall x, near n x0 rho x -> func (lift x) = lift (f x)) ->
  (forall x, near n x0 rho x -> jac (lift x) = liftm (JA x) /\ square n (JA x)) ->
  (forall i j, (i < n)%nat -> (j < n)%nat -> Rabs (ment A i j - ment (JA x0) i j) <= e) ->
  steady_guess n f J A x0 rho e b r ->
  exists xs, near n x0 r xs /\ root_in n f x0 rho xs /\
  forall tol maxit damping rf,
  rootfinder_new (mkSolverParameters n (Fin tol) maxit (QuasiNewton StationaryNewton) damping) (lift x0)
    (jac_iteratives n) (all_abs n) = Ret rf ->
  promised n f x0 xs r b tol maxit
    (solve (model_from_function_and_jacobian func jac) rf (user_model_new n)).
Proof.
  intros n func jac f J JA A x0 rho e b r Hf HJ HJ0 G.
  destruct (C94_root n f J A x0 rho e b r G) as (xs & NX & RX); exists xs; split; [exact NX|]; split; [exact RX|].
  intros tol maxit damping rf HN; apply new_fields in HN.
  set (D := near n x0 rho).
  assert (Hf' := promise_fun n f J A x0 rho e b r G func Hf).
  assert (HJ' : forall x, D x -> length x = n -> jac (lift x) = liftm (JA x) /\ is_mat n (JA x))
    by (intros x Dx _; split; apply (HJ x Dx)).
  assert (FP := adapter_problem n D func f Hf' (fun _ => true) (um_get_jacobian jac)).
  assert (WB := abs_well_behaved _ n _ _ _ _ FP).
  assert (HA := adapter_analytic n D func f Hf' jac JA HJ').
  set (M := model_from_function_and_jacobian func jac) in *.
  assert (HU := promise_residuals n f J A x0 rho e b r G).
  set (U := residuals_of f (fun _ => vzeros n)) in *.
  set (P := on_the_way n f x0 b r).
  assert (PD : forall x, P x -> D x) by (intros x W; exact (way_rho _ _ _ _ _ _ _ _ _ G x W)).
  assert (W0 := guess_way _ _ _ _ _ _ _ _ _ G).
  assert (CL : close_to n A e (JA x0)) by (split; [apply (HJ x0 (PD _ W0))|exact HJ0]).
  destruct (close_inverts _ _ _ _ _ _ _ _ _ G _ CL) as (H & EH & SH & _).
  assert (HP : forall x, P x -> length x = n -> xltb (Fin tol) (Fin (amax (vabs (U x)))) = true ->
    P (newton_point U H x) /\ D (newton_point U H x)).
  { intros x W _ _; rewrite (way_point _ _ _ _ _ _ _ _ _ G U HU x H W).
    destruct (chord_step _ _ _ _ _ _ _ _ _ G x (JA x0) H W CL EH) as (_ & _ & W1).
    split; [exact W1|exact (PD _ W1)]. }
  assert (FALL : forall x, P x -> length x = n -> xltb (Fin tol) (Fin (amax (vabs (U x)))) = true ->
    amax (vabs (U (newton_point U H x))) <= amax (vabs (U x))).
  { intros x W _ _; rewrite (way_point _ _ _ _ _ _ _ _ _ G U HU x H W).
    destruct (chord_step _ _ _ _ _ _ _ _ _ G x (JA x0) H W CL EH) as (_ & F1 & W1).
    rewrite !amax_vabs, (HU _ (PD _ W)), (HU _ (PD _ W1)); assert (X := amax_nonneg (f x)); lra. }
  assert (SOL := stationary_solve_damped M n (all_abs n) (adapter_good n) D f (fun _ => vzeros n) U
    (fun x => vabs (U x)) WB H SH (Fin tol) P HP rf (user_model_new n) x0 (JA x0) x0).
  assert (NC : plain n (all_abs n) (QuasiNewton StationaryNewton) rf).
  { subst rf; repeat split; [apply default_jac_unlimited|].
    cbn [rf_iters_params]; unfold jac_iteratives, default_vec_iteratives.
    rewrite map_length, repeat_length; reflexivity. }
  assert (MI : sp_max_iter (rf_parameters rf) = maxit) by (subst rf; reflexivity).
  rewrite MI in SOL.
  specialize (SOL NC (or_intror FALL)
    (fun T => or_intror (FALL x0 W0 (sg_len _ _ _ _ _ _ _ _ _ G) T)) ltac:(subst rf; reflexivity)
    ltac:(subst rf; reflexivity) ltac:(subst rf; reflexivity) ltac:(subst rf; reflexivity)
    ltac:(subst rf; reflexivity) (sg_len _ _ _ _ _ _ _ _ _ G) W0 (PD _ W0) (fresh_good n)
    ltac:(intros s1 _; left; exists JA; auto) EH).
  destruct (chord_run n f J A x0 rho e b r G (fun _ => JA x0) (fun _ _ => CL) U HU tol maxit x0 W0)
    as (k & y & ER & WY & Q); cbv beta in *.
  rewrite (kept_newton_run U (fun x => vabs (U x)) H (Fin tol) (JA x0) EH) in ER.
  destruct (kept_run _ _ _ _ _ _) as [k' y'] eqn:EK; injection ER as -> ->.
  destruct SOL as (rf' & s' & SOL & SA & SI).
  destruct Q as (Q1 & Q2 & Q3 & Q4).
  apply (pack_promise n f J A x0 rho e b r G xs NX RX _ rf' s' k y U); [exact (HU _ (PD _ WY))|apply SA|assumption..].
Qed.
Print Assumptions C94_stationary.

(** ** Finite differences *)
Lemma fd_last_cases n x d : n = O /\ fd_last n x d = x \/
  (Nat.pred n < n)%nat /\ fd_last n x d = shift x (Nat.pred n) (vent d (Nat.pred n)).
Proof. destruct n as [|m]; [left; auto|right; split; [cbn; lia|reflexivity]]. Qed.

Section Differences.
Context (n : nat) (f : vec R -> vec R) (J : vec R -> mat R) (A : mat R) (x0 : vec R) (rho e b r delta : R)
  (its : list (iterative XR)) (step : vec R -> vec R)
  (G : steady_guess n f J A x0 rho e b r) (Pd : 0 <= delta) (RD : r + delta <= rho)
  (ST : small_steps n its (near n x0 r) step delta)
  (U : vec R -> vec R) (HU : forall x, near n x0 rho x -> U x = f x)
  (FDE : forall x i j, near n x0 r x -> (i < n)%nat -> (j < n)%nat ->
    ment (fd_matrix n U x (step x)) i j
    = (vent (U (shift x j (vent (step x) j))) i - vent (U x) i) / vent (step x) j).

Lemma fd_points_near x j t : near n x0 r x -> (j < n)%nat -> LocalFacts.within (vent (step x) j) t ->
  near n x0 rho (shift x j t).
Proof.
  intros N Hj W; apply near_le with (r + delta); [exact RD|].
  apply (fd_near n x0 r delta its step ST x j t N Hj W).
Qed.

Lemma fd_close x : near n x0 r x -> close_to n A e (fd_matrix n U x (step x)).
Proof.
  intros N; split; [apply fd_matrix_is_mat|]; intros i j Hi Hj.
  destruct (ST x N) as (_ & _ & S1); destruct (S1 j Hj) as [S2 S3].
  assert (DX : near n x0 rho x) by (apply near_le with r; [lra|exact N]).
  destruct (mean_value n (near n x0 rho) f J x i j (vent (step x) j)
    (sd_partials _ _ _ _ _ _ _ _ (sg_steady _ _ _ _ _ _ _ _ _ G)) (proj1 N) Hi Hj) as (t & W & E).
  { intros t W; apply fd_points_near; assumption. }
  rewrite FDE by assumption; rewrite !HU; [|exact DX|apply fd_points_near; auto using within_self].
  rewrite E; replace (ment (J (shift x j t)) i j * vent (step x) j / vent (step x) j)
    with (ment (J (shift x j t)) i j) by (field; exact S2).
  apply (sd_slopes _ _ _ _ _ _ _ _ (sg_steady _ _ _ _ _ _ _ _ _ G)); [|exact Hi|exact Hj].
  apply fd_points_near; assumption.
Qed.

(** The point where finite differences leave the model: the last one perturbed. *)
Lemma fd_last_near x : near n x0 r x -> near n x0 rho (fd_last n x (step x)).
Proof using Pd RD ST.
  intros N; destruct (fd_last_cases n x (step x)) as [[_ ->]|[L ->]].
  - apply near_le with r; [lra|exact N].
  - apply fd_points_near; [exact N|exact L|apply within_self].
Qed.
Lemma fd_last_residuals x : near n x0 r x -> forall c,
  (forall i j, (i < n)%nat -> (j < n)%nat -> (Rabs (ment A i j) + e) * delta <= c) -> 0 <= c ->
  amax (f x) - c <= amax (f (fd_last n x (step x))).
Proof using G Pd RD ST.
  intros N c HC Pc.
  assert (DX : near n x0 rho x) by (apply near_le with r; [lra|exact N]).
  assert (DL := fd_last_near x N).
  assert (Lf := sg_fun _ _ _ _ _ _ _ _ _ G x DX); assert (LL := sg_fun _ _ _ _ _ _ _ _ _ G _ DL).
  cut (amax (f x) <= amax (f (fd_last n x (step x))) + c); [lra|].
  apply amax_le; [assert (X := amax_nonneg (f (fd_last n x (step x)))); lra|]; intros i Hi; rewrite Lf in Hi.
  assert (B := amax_bound n _ i LL Hi).
  assert (Q : Rabs (vent (f (fd_last n x (step x))) i - vent (f x) i) <= c).
  { destruct (ST x N) as (_ & _ & S1); assert (P1 := fun t => fd_points_near x (Nat.pred n) t N).
    assert (EL : fd_last n x (step x) = shift x (Nat.pred n) (vent (step x) (Nat.pred n)))
      by (destruct (fd_last_cases n x (step x)) as [[Z _]|[_ E]]; [lia|exact E]).
    assert (Hj : (Nat.pred n < n)%nat) by lia; destruct (S1 _ Hj) as [_ S3].
    destruct (mean_value n (near n x0 rho) f J x i (Nat.pred n) (vent (step x) (Nat.pred n))
      (sd_partials _ _ _ _ _ _ _ _ (sg_steady _ _ _ _ _ _ _ _ _ G)) (proj1 N) Hi Hj) as (t & W & E).
    { intros t W; apply P1; assumption. }
    rewrite EL, E, Rabs_mult.
    assert (X := sd_slopes _ _ _ _ _ _ _ _ (sg_steady _ _ _ _ _ _ _ _ _ G) _ i _ (P1 t Hj W) Hi Hj).
    apply Rle_trans with (2 := HC i _ Hi Hj); apply Rmult_le_compat; try apply Rabs_pos; [|exact S3].
    revert X; unfold Rabs; repeat destruct Rcase_abs; lra. }
  revert B Q; unfold Rabs; repeat destruct Rcase_abs; lra.
Qed.
End Differences.

(** With damping, the errors after the step are compared with those of the last
    perturbed point; a tolerance large enough compared with the perturbations makes
    up for it. *)
Theorem C94_finite_differences : forall n func (f : vec R -> vec R) (J : vec R -> mat R) A x0 rho e b r
  delta its step,
  (forall x, near n x0 rho x -> func (lift x) = lift (f x)) ->
  steady_guess n f J A x0 rho e b r -> 0 <= delta -> r + delta <= rho ->
  Forall unlimited its -> length its = n -> small_steps n its (near n x0 r) step delta ->
  exists xs, near n x0 r xs /\ root_in n f x0 rho xs /\
  forall tol maxit method damping rf, method = NewtonRaphson \/ method = QuasiNewton StationaryNewton ->
  (damping = true -> forall i j, (i < n)%nat -> (j < n)%nat -> 2 * ((Rabs (ment A i j) + e) * delta) <= tol) ->
  rootfinder_new (mkSolverParameters n (Fin tol) maxit method damping) (lift x0) its (all_abs n) = Ret rf ->
  promised n f x0 xs r b tol maxit (solve (model_from_function func) rf (user_model_new n)).
Proof.
  intros n func f J A x0 rho e b r delta its step Hf G Pd RD UL LI ST.
  destruct (C94_root n f J A x0 rho e b r G) as (xs & NX & RX); exists xs; split; [exact NX|]; split; [exact RX|].
  intros tol maxit method damping rf HM HDA HN; apply new_fields in HN.
  set (D := near n x0 rho).
  assert (Hf' := promise_fun n f J A x0 rho e b r G func Hf).
  assert (FP := adapter_problem n D func f Hf' default_jacobian_provided (default_get_jacobian um_inputs)).
  assert (WB := abs_well_behaved _ n _ _ _ _ FP).
  change (mkModel um_problem_size um_set_iteratives um_inputs (um_evaluate func) um_get_residuals
    default_jacobian_provided (default_get_jacobian um_inputs) default_get_memory default_set_memory
    show_infallible show_infallible) with (model_from_function func) in WB.
  set (M := model_from_function func) in *.
  assert (HU := promise_residuals n f J A x0 rho e b r G).
  set (U := residuals_of f (fun _ => vzeros n)) in *.
  set (P := on_the_way n f x0 b r).
  assert (PD : forall x, P x -> D x) by (intros x W; exact (way_rho _ _ _ _ _ _ _ _ _ G x W)).
  assert (PR : forall x, P x -> near n x0 r x) by (intros x W; exact (way_r _ _ _ _ _ _ _ _ _ G x W)).
  assert (W0 := guess_way _ _ _ _ _ _ _ _ _ G).
  assert (FPT : forall x, near n x0 r x -> fd_points n D x (step x)).
  { intros x N j Hj; apply (fd_points_near n x0 rho r delta its step RD ST); auto using within_self. }
  assert (NB : forall x, near n x0 r x -> D x) by (intros x N; apply near_le with r; [lra|exact N]).
  assert (FDE : forall x i j, near n x0 r x -> (i < n)%nat -> (j < n)%nat ->
    ment (fd_matrix n U x (step x)) i j
    = (vent (U (shift x j (vent (step x) j))) i - vent (U x) i) / vent (step x) j).
  { intros x i j N Hi Hj; apply (fd_matrix_entry M n _ _ D _ _ U _ WB); auto; exact (proj1 N). }
  assert (CL := fd_close n f J A x0 rho e b r delta its step G Pd RD ST U HU FDE).
  assert (SRC : forall rf1 x s, rf_iters_params rf1 = its -> P x ->
    at_point M n (adapter_good n) D f (fun _ => vzeros n) x s ->
    jacobian_source M n (all_abs n) (adapter_good n) D f (fun _ => vzeros n) U rf1 x s
      (fd_matrix n U x (step x)) (fd_last n x (step x))).
  { intros rf1 x s E1 W _; assert (N := PR x W); right; exists (step x); rewrite E1.
    destruct (ST x N) as (T1 & T2 & T3).
    split; [reflexivity|]; split; [|split; reflexivity].
    split; [exact T1|]; split; [exact T2|]; split; [intros; apply T3; assumption|apply FPT; exact N]. }
  assert (LAST : forall x w, P x -> xltb (Fin tol) (Fin (amax (vabs (U x)))) = true -> damping = true ->
    amax (f w) <= 1 / 2 * amax (f x) -> D w -> amax (vabs (U w)) <= amax (vabs (U (fd_last n x (step x))))).
  { intros x w W T DT FW DW; rewrite amax_vabs, (HU _ (PD _ W)) in T; cbn [xltb] in T; apply Rltb_true in T.
    assert (LA := fd_last_residuals n f J A x0 rho e b r delta its step G Pd RD ST x (PR _ W)).
    rewrite !amax_vabs, (HU _ DW), (HU _ (fd_last_near n x0 rho r delta its step Pd RD ST x (PR _ W))).
    assert (LF := LA (tol / 2) (fun i j Hi Hj => ltac:(specialize (HDA DT i j Hi Hj); lra))).
    assert (0 <= tol / 2 \/ n = O) as [TP| ->].
    { destruct n as [|m]; [right; reflexivity|left].
      specialize (HDA DT O O ltac:(lia) ltac:(lia)).
      assert (0 <= (Rabs (ment A 0 0) + e) * delta).
      { apply Rmult_le_pos; [|exact Pd]; assert (X := Rabs_pos (ment A 0 0)).
        destruct (sg_pos _ _ _ _ _ _ _ _ _ G); lra. }
      lra. }
    - specialize (LF TP); lra.
    - assert (X := amax_nonneg (f (fd_last 0 x (step x)))).
      assert (f w = []) as -> by (apply length_zero_iff_nil, (sg_fun _ _ _ _ _ _ _ _ _ G w DW)).
      apply amax_le; [exact X|]; intros i Hi; cbn in Hi; lia. }
  assert (MI : sp_max_iter (rf_parameters rf) = maxit) by (subst rf; reflexivity).
  assert (IP : rf_iters_params rf = its) by (subst rf; reflexivity).
  destruct HM as [EM|EM].
  - set (K := fun x => fd_matrix n U x (step x)) in *.
    assert (SOL := newton_solve M n (all_abs n) (adapter_good n) D f (fun _ => vzeros n) U
      (fun x => vabs (U x)) WB its K (fun x => fd_last n x (step x)) (Fin tol) damping P SRC).
    assert (HP : forall x H, P x -> length x = n -> xltb (Fin tol) (Fin (amax (vabs (U x)))) = true ->
      lu_inverse (K x) = Some H ->
      P (newton_point U H x) /\ D (newton_point U H x) /\
      (damping = true -> amax (vabs (U (newton_point U H x))) <= amax (vabs (U (fd_last n x (step x)))))).
    { intros x H W _ T EH.
      rewrite (way_point _ _ _ _ _ _ _ _ _ G U HU x H W).
      destruct (chord_step _ _ _ _ _ _ _ _ _ G x (K x) H W (CL x (PR x W)) EH) as (_ & F1 & W1).
      split; [exact W1|]; split; [exact (PD _ W1)|intros DT; exact (LAST x _ W T DT F1 (PD _ W1))]. }
    specialize (SOL HP rf (user_model_new n) x0).
    assert (NC : newton_config n (all_abs n) rf) by (subst rf method; repeat split; assumption).
    rewrite MI in SOL.
    specialize (SOL NC IP ltac:(subst rf; reflexivity)
      ltac:(subst rf; reflexivity) ltac:(subst rf; reflexivity) ltac:(subst rf; reflexivity)
      ltac:(subst rf; reflexivity) (sg_len _ _ _ _ _ _ _ _ _ G) W0 (PD _ W0) (fresh_good n)).
    destruct (chord_run n f J A x0 rho e b r G K CL U HU tol maxit x0 W0)
      as (k & y & ER & WY & Q); cbv beta in *.
    rewrite ER in SOL; destruct SOL as (rf' & s' & _ & SOL & SA & SI).
    destruct Q as (Q1 & Q2 & Q3 & Q4).
    apply (pack_promise n f J A x0 rho e b r G xs NX RX _ rf' s' k y U);
      [exact (HU _ (PD _ WY))|apply SA|assumption..].
  - set (B := fd_matrix n U x0 (step x0)).
    assert (CB : close_to n A e B) by exact (CL x0 (PR _ W0)).
    destruct (close_inverts _ _ _ _ _ _ _ _ _ G _ CB) as (H & EH & SH & _).
    assert (HP : forall x, P x -> length x = n -> xltb (Fin tol) (Fin (amax (vabs (U x)))) = true ->
      P (newton_point U H x) /\ D (newton_point U H x)).
    { intros x W _ _; rewrite (way_point _ _ _ _ _ _ _ _ _ G U HU x H W).
      destruct (chord_step _ _ _ _ _ _ _ _ _ G x B H W CB EH) as (_ & _ & W1).
      split; [exact W1|exact (PD _ W1)]. }
    assert (UD : undamped n U (fun x => vabs (U x)) H (Fin tol) P rf).
    { right; intros x W _ _; rewrite (way_point _ _ _ _ _ _ _ _ _ G U HU x H W).
      destruct (chord_step _ _ _ _ _ _ _ _ _ G x B H W CB EH) as (_ & F1 & W1).
      rewrite !amax_vabs, (HU _ (PD _ W)), (HU _ (PD _ W1)); assert (X := amax_nonneg (f x)); lra. }
    assert (U1 : xltb (Fin tol) (Fin (amax (vabs (U x0)))) = true ->
      no_worse (fun x => vabs (U x)) rf (fd_last n x0 (step x0)) (newton_point U H x0)).
    { intros T; destruct damping eqn:DT; [right|left; subst rf; reflexivity].
      rewrite (way_point _ _ _ _ _ _ _ _ _ G U HU x0 H W0).
      destruct (chord_step _ _ _ _ _ _ _ _ _ G x0 B H W0 CB EH) as (_ & F1 & W1).
      exact (LAST x0 _ W0 T eq_refl F1 (PD _ W1)). }
    assert (SOL := stationary_solve_damped M n (all_abs n) (adapter_good n) D f (fun _ => vzeros n) U
      (fun x => vabs (U x)) WB H SH (Fin tol) P HP rf (user_model_new n) x0 B (fd_last n x0 (step x0))).
    assert (NC : plain n (all_abs n) (QuasiNewton StationaryNewton) rf)
      by (subst rf method; repeat split; assumption).
    rewrite MI in SOL.
    specialize (SOL NC UD U1 ltac:(subst rf; reflexivity)
      ltac:(subst rf; reflexivity) ltac:(subst rf; reflexivity) ltac:(subst rf; reflexivity)
      ltac:(subst rf; reflexivity) (sg_len _ _ _ _ _ _ _ _ _ G) W0 (PD _ W0) (fresh_good n)
      (fun s1 => SRC rf x0 s1 IP W0) EH).
    destruct (chord_run n f J A x0 rho e b r G (fun _ => B) (fun _ _ => CB) U HU tol maxit x0 W0)
      as (k & y & ER & WY & Q); cbv beta in *.
    rewrite (kept_newton_run U (fun x => vabs (U x)) H (Fin tol) B EH) in ER.
    destruct (kept_run _ _ _ _ _ _) as [k' y'] eqn:EK; injection ER as -> ->.
    destruct SOL as (rf' & s' & SOL & SA & SI).
    destruct Q as (Q1 & Q2 & Q3 & Q4).
    apply (pack_promise n f J A x0 rho e b r G xs NX RX _ rf' s' k y U);
      [exact (HU _ (PD _ WY))|apply SA|assumption..].
Qed.
Print Assumptions C94_finite_differences.

(** Broyden's problem 9 from (1.0001, 1.0002): the slopes within 0.0006 of the
    guess are within 0.014 of those at (1, 1), the residuals are at most 0.0001,
    so seven iterations are enough for 10^-6, with the matrix at (1, 1) in the
    place of the jacobian, with the default finite differences, and with the
    stationary method. *)
Definition guess9 : vec R := [10001 / 10000; 10002 / 10000].
Lemma guess9_residuals : amax (case9 guess9) <= 1 / 10000.
Proof.
  apply amax_le; [lra|]; intros [|[|i]] Hi; [| |cbn in Hi; lia]; unfold vent, guess9, nsq; cbn;
    unfold Rabs; destruct Rcase_abs; lra.
Qed.
Lemma guess9_steady :
  steady_guess 2 case9 case9_jac (case9_jac [1; 1]) guess9 (6 / 10000) (14 / 1000) (21 / 10) (53 / 100000).
Proof.
  assert (RR := case9_regular 1 ltac:(lra)).
  assert (N1 : near 2 [1; 1] (2 / 10000) guess9).
  { split; [reflexivity|]; intros [|[|i]] Hi; [| |lia]; unfold vent, guess9; cbn [nth]; unfold Rabs; destruct Rcase_abs; lra. }
  constructor.
  - constructor.
    + apply case9_partials.
    + intros y i j [Ly N] Hi Hj; destruct (len2 y Ly) as (p & q & ->).
      assert (X0 := N O ltac:(lia)); unfold vent, guess9 in X0; cbn [nth] in X0.
      destruct i as [|[|i]]; [| |lia]; (destruct j as [|[|j]]; [| |lia]);
        unfold ment, vent; cbn; revert X0; unfold Rabs; repeat destruct Rcase_abs; lra.
    + exact (rr_regular _ _ _ _ _ _ _ _ RR).
    + lra.
    + cbn [INR]; lra.
  - cbn [INR]; lra.
  - reflexivity.
  - intros x [Lx _]; destruct (len2 x Lx) as (p & q & ->); reflexivity.
  - apply (rr_mat _ _ _ _ _ _ _ _ RR); apply near_le with 0; [lra|apply near_refl; reflexivity].
  - lra.
  - assert (X := guess9_residuals); lra.
Qed.
Lemma case9_lift x : length x = 2%nat -> case9 (lift x) = lift (case9 x).
Proof. intros Lx; destruct (len2 x Lx) as (p & q & ->); reflexivity. Qed.
Lemma guess9_root xs : near 2 guess9 (53 / 100000) xs -> root_in 2 case9 guess9 (6 / 10000) xs -> xs = [1; 1].
Proof.
  intros N RX; symmetry; apply RX.
  - split; [reflexivity|]; intros [|[|i]] Hi; [| |lia]; unfold vent, guess9; cbn [nth]; unfold Rabs; destruct Rcase_abs; lra.
  - intros [|[|i]] Hi; [| |lia]; unfold vent, nsq; cbn; lra.
Qed.
Lemma guess9_seven {EI EU} (o : outcome (rootfinder XR * user_model XR * result unit (solver_error EI EU))) maxit tol :
  (7 <= maxit)%nat -> 1 / 1000000 <= tol ->
  promised 2 case9 guess9 [1; 1] (53 / 100000) (21 / 10) tol maxit o ->
  exists rf' s' y, o = Ret (rf', s', Ok tt) /\ (rf_iter rf' <= 7)%nat /\ um_inputs s' = lift y /\
    near 2 [1; 1] (3 * tol) y.
Proof.
  intros LM LT (rf' & s' & y & Q1 & Q2 & Q3 & Q4 & Q5 & Q6 & Q7).
  destruct (Q7 7%nat LM) as [F1 F2].
  { assert (X := guess9_residuals); cbn [pow]; lra. }
  exists rf', s', y; split; [exact F1|]; split; [exact F2|]; split; [exact Q1|].
  destruct Q6 as [[_ Q6]|[Q6 _]]; [|rewrite F1 in Q6; discriminate].
  apply near_le with (2 := Q3).
  assert (amax (case9 y) <= tol).
  { apply amax_le; [lra|]; intros i Hi; apply Q6.
    destruct (len2 y (proj1 Q2)) as (p & q & ->); exact Hi. }
  lra.
Qed.

Example C94_case : forall maxit damping rf method, (7 <= maxit)%nat ->
  method = NewtonRaphson \/ method = QuasiNewton StationaryNewton ->
  rootfinder_new (mkSolverParameters 2 (Fin (1 / 1000000)) maxit method damping)
    (lift guess9) (jac_iteratives 2) (all_abs 2) = Ret rf ->
  exists rf' s' y,
    solve (model_from_function_and_jacobian case9 (fun _ => case9_jac (lift [1; 1]))) rf (user_model_new 2)
    = Ret (rf', s', Ok tt) /\ (rf_iter rf' <= 7)%nat /\ um_inputs s' = lift y /\ near 2 [1; 1] (3 * (1 / 1000000)) y.
Proof.
  intros maxit damping rf method LM HM HN; apply (guess9_seven _ maxit); [exact LM|lra|].
  assert (RR := case9_regular 1 ltac:(lra)).
  assert (SQ : square 2 (case9_jac [1; 1]))
    by (apply (rr_mat _ _ _ _ _ _ _ _ RR); apply near_le with 0; [lra|apply near_refl; reflexivity]).
  assert (LJ : case9_jac (lift [1; 1]) = liftm (case9_jac [1; 1])) by reflexivity.
  assert (Z : forall i j, Rabs (ment (case9_jac [1; 1]) i j - ment (case9_jac [1; 1]) i j) <= 14 / 1000)
    by (intros; unfold Rminus; rewrite Rplus_opp_r, Rabs_R0; lra).
  destruct HM as [-> | ->].
  - destruct (C94_newton 2 case9 (fun _ => case9_jac (lift [1; 1])) case9 case9_jac (fun _ => case9_jac [1; 1])
      (case9_jac [1; 1]) guess9 (6 / 10000) (14 / 1000) (21 / 10) (53 / 100000)) as (xs & NX & RX & ALL).
    + intros x [Lx _]; apply case9_lift, Lx.
    + intros x _; split; [exact LJ|]; split; [exact SQ|intros; apply Z].
    + exact guess9_steady.
    + rewrite (guess9_root xs NX RX) in ALL; exact (ALL _ _ _ _ HN).
  - destruct (C94_stationary 2 case9 (fun _ => case9_jac (lift [1; 1])) case9 case9_jac (fun _ => case9_jac [1; 1])
      (case9_jac [1; 1]) guess9 (6 / 10000) (14 / 1000) (21 / 10) (53 / 100000)) as (xs & NX & RX & ALL).
    + intros x [Lx _]; apply case9_lift, Lx.
    + intros x _; split; [exact LJ|exact SQ].
    + intros; apply Z.
    + exact guess9_steady.
    + rewrite (guess9_root xs NX RX) in ALL; exact (ALL _ _ _ _ HN).
Qed.

Example C94_finite_differences_case : forall maxit damping rf method, (7 <= maxit)%nat ->
  method = NewtonRaphson \/ method = QuasiNewton StationaryNewton ->
  rootfinder_new (mkSolverParameters 2 (Fin (1 / 200000)) maxit method damping)
    (lift guess9) (fd_iteratives 2) (all_abs 2) = Ret rf ->
  exists rf' s' y,
    solve (model_from_function case9) rf (user_model_new 2)
    = Ret (rf', s', Ok tt) /\ (rf_iter rf' <= 7)%nat /\ um_inputs s' = lift y /\ near 2 [1; 1] (3 * (1 / 200000)) y.
Proof.
  intros maxit damping rf method LM HM HN; apply (guess9_seven _ maxit); [exact LM|lra|].
  destruct (C94_finite_differences 2 case9 case9 case9_jac (case9_jac [1; 1]) guess9 (6 / 10000) (14 / 1000)
    (21 / 10) (53 / 100000) (5 / 100000000 * 2) (fd_iteratives 2) (map default_step)) as (xs & NX & RX & ALL).
  - intros x [Lx _]; apply case9_lift, Lx.
  - exact guess9_steady.
  - lra.
  - lra.
  - apply default_fd_unlimited.
  - reflexivity.
  - apply default_small_steps; [lra|]; intros [|[|j]] Hj; [| |lia]; unfold vent, guess9; cbn [nth];
      rewrite Rabs_right; lra.
  - rewrite (guess9_root xs NX RX) in ALL; apply (ALL _ _ _ _ _ HM) with (2 := HN).
    intros _ i j Hi Hj; destruct i as [|[|i]]; [| |lia]; (destruct j as [|[|j]]; [| |lia]);
      unfold ment, vent; cbn; unfold Rabs; destruct Rcase_abs; lra.
Qed.

Example C94_case_exists : forall maxit method damping its tol, its = jac_iteratives 2 \/ its = fd_iteratives 2 ->
  0 < tol -> exists rf,
  rootfinder_new (mkSolverParameters 2 (Fin tol) maxit method damping) (lift guess9) its (all_abs 2)
  = Ret rf.
Proof. intros maxit method damping its tol [-> | ->] _; eexists; reflexivity. Qed.
