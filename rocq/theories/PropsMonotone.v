(** C95: the monotone Newton theorem. For systems with convex residuals whose
    slopes form M-matrices, two points where the residuals are of opposite signs
    enclose a root, and Newton-Raphson, with the jacobian of the user or with
    finite differences, and the stationary method go down to it from above,
    however far the guess. *)
From Coq Require Import Reals Lra.
From Verif Require Import Base Num Linalg Residuals Iteratives UserModel Jacobian Solver
  RNum LuFacts XR PropsQuasi PropsFD ExactFacts ExactRun PropsExact Util1d Props1d LocalFacts
  QuasiRun TestCases PropsLocal PropsKantorovich PropsDistance PropsSteady.
Open Scope R_scope.

Definition below (n : nat) (x y : vec R) : Prop := forall i, (i < n)%nat -> vent x i <= vent y i.
Definition total (n : nat) (x : vec R) : R := rsum n (vent x).

(** Entries outside the diagonal at most 0, and a direction [u] with positive
    components along which every row grows by [c] at least; with [u] made of
    ones: diagonal dominance. *)
Record m_matrix (n : nat) (u : vec R) (c : R) (B : mat R) : Prop := {
  mm_square : square n B;
  mm_off : forall i j, (i < n)%nat -> (j < n)%nat -> i <> j -> ment B i j <= 0;
  mm_dir : forall i, (i < n)%nat -> c <= app n B u i
}.

(** A smallest quotient. *)
Lemma smallest : forall n (g : nat -> R), (0 < n)%nat ->
  exists k, (k < n)%nat /\ forall i, (i < n)%nat -> g k <= g i.
Proof.
  induction n as [|n IH]; intros g Hn; [lia|].
  destruct n as [|n].
  - exists O; split; [lia|]; intros i Hi; assert (i = O) by lia; subst i; lra.
  - destruct (IH g ltac:(lia)) as (k & Hk & M).
    destruct (Rle_lt_dec (g k) (g (S n))) as [L|L].
    + exists k; split; [lia|]; intros i Hi; destruct (Nat.eq_dec i (S n)) as [->|N]; [exact L|apply M; lia].
    + exists (S n); split; [lia|]; intros i Hi; destruct (Nat.eq_dec i (S n)) as [->|N]; [lra|].
      specialize (M i ltac:(lia)); lra.
Qed.

Section Matrix.
Context (n : nat) (u : vec R) (c : R) (Pc : 0 < c) (Pu : forall i, (i < n)%nat -> 0 < vent u i).

(** A vector whose image has no negative component has none itself. *)
Lemma m_matrix_monotone B v : m_matrix n u c B -> (forall i, (i < n)%nat -> 0 <= app n B v i) ->
  forall i, (i < n)%nat -> 0 <= vent v i.
Proof.
  intros [_ OFF DIR] IMG i Hi.
  destruct (smallest n (fun j => vent v j / vent u j) ltac:(lia)) as (k & Hk & M).
  set (t := vent v k / vent u k) in *.
  assert (LB : forall j, (j < n)%nat -> t * vent u j <= vent v j).
  { intros j Hj; assert (P := Pu j Hj); specialize (M j Hj).
    apply Rmult_le_compat_r with (r := vent u j) in M; [|lra].
    replace (vent v j / vent u j * vent u j) with (vent v j) in M by (field; lra); exact M. }
  destruct (Rle_lt_dec 0 t) as [T|T].
  - eapply Rle_trans; [|apply LB; exact Hi]; apply Rmult_le_pos; [exact T|]; specialize (Pu i Hi); lra.
  - exfalso; specialize (IMG k Hk); specialize (DIR k Hk).
    assert (EK : vent v k = t * vent u k) by (unfold t; field; specialize (Pu k Hk); lra).
    assert (Q : app n B v k <= t * app n B u k).
    { unfold app; rewrite <- rsum_scal_l; apply LocalFacts.rsum_le; intros j Hj.
      destruct (Nat.eq_dec k j) as [<-|N]; [rewrite EK; lra|].
      specialize (OFF k j Hk Hj N); specialize (LB j Hj).
      replace (t * (ment B k j * vent u j)) with (ment B k j * (t * vent u j)) by ring.
      apply Ropp_le_cancel; rewrite !Ropp_mult_distr_l; apply Rmult_le_compat_l; lra. }
    assert (t * app n B u k < 0); [|lra].
    replace 0 with (t * 0) by ring; apply Rmult_lt_gt_compat_neg_l; lra.
Qed.

Lemma m_matrix_inverts B : m_matrix n u c B -> exists H, lu_inverse B = Some H /\ square n H /\ inverse_of n B H.
Proof.
  intros MM; destruct (lu_inverse B) as [H|] eqn:EH.
  - exists H; split; [reflexivity|]; apply C60_inverse; [apply MM|exact EH].
  - exfalso; destruct (proj1 (C60_fails_only_on_singular n B (mm_square _ _ _ _ MM)) EH)
      as (x & Lx & (i & Hi & Nz) & Z).
    assert (P := m_matrix_monotone B x MM ltac:(intros k Hk; rewrite Z by exact Hk; lra) i Hi).
    assert (N : 0 <= vent (map Ropp x) i).
    { apply (m_matrix_monotone B (map Ropp x) MM); [|exact Hi]; intros k Hk.
      replace (app n B (map Ropp x) k) with (- app n B x k); [rewrite Z by exact Hk; lra|].
      unfold app; replace (- rsum n _) with (-1 * rsum n (fun k0 => ment B k k0 * vent x k0)) by ring.
      rewrite <- rsum_scal_l; apply rsum_ext; intros j Hj.
      unfold vent at 2; rewrite (nth_indep _ _ (- 0)) by (rewrite map_length, Lx; exact Hj).
      rewrite map_nth; unfold vent; ring. }
    unfold vent at 1 in N; rewrite (nth_indep _ _ (- 0)) in N by (rewrite map_length, Lx; exact Hi).
    rewrite map_nth in N; apply Nz; unfold vent in *; lra.
Qed.

(** A matrix with larger entries which keeps the signs outside the diagonal. *)
Lemma m_matrix_above A B : m_matrix n u c A -> square n B ->
  (forall i j, (i < n)%nat -> (j < n)%nat -> ment A i j <= ment B i j) ->
  (forall i j, (i < n)%nat -> (j < n)%nat -> i <> j -> ment B i j <= 0) -> m_matrix n u c B.
Proof.
  intros [_ _ DIR] SB LE OFF; constructor; [exact SB|exact OFF|].
  intros i Hi; eapply Rle_trans; [apply DIR; exact Hi|].
  unfold app; apply LocalFacts.rsum_le; intros j Hj.
  apply Rmult_le_compat_r; [specialize (Pu j Hj); lra|apply LE; assumption].
Qed.
End Matrix.

Section Monotone.
Context (n : nat) (f : vec R -> vec R) (J : vec R -> mat R) (D : vec R -> Prop) (u : vec R) (c : R)
  (lo hi : vec R).

(** The residuals are convex, their slopes [J] are M-matrices, and their signs
    at [lo] and [hi] are opposite. *)
Record bracketed : Prop := {
  br_pos : 0 < c;
  br_dir : length u = n /\ forall i, (i < n)%nat -> 0 < vent u i;
  br_len : forall x, D x -> length x = n /\ length (f x) = n;
  br_lo : length lo = n;
  br_hi : length hi = n;
  br_box : forall w, length w = n -> below n lo w -> below n w hi -> D w;
  br_convex : forall x y i, D x -> D y -> (i < n)%nat ->
    app n (J x) (vsub_raw y x) i <= vent (f y) i - vent (f x) i;
  br_slopes : forall x, D x -> m_matrix n u c (J x);
  br_in : D lo /\ D hi;
  br_under : forall i, (i < n)%nat -> vent (f lo) i <= 0;
  br_over : forall i, (i < n)%nat -> 0 <= vent (f hi) i
}.
Context (G : bracketed).

Lemma sub_vent x y i : length x = n -> length y = n -> (i < n)%nat -> vent (vsub_raw y x) i = vent y i - vent x i.
Proof. intros; apply (ent_sub n); assumption. Qed.

(** Points with smaller and larger residuals are ordered in the same way. *)
Lemma residuals_order x y : D x -> D y ->
  (forall i, (i < n)%nat -> vent (f x) i <= 0) -> (forall i, (i < n)%nat -> 0 <= vent (f y) i) -> below n x y.
Proof.
  intros Dx Dy Nx Ny i Hi.
  destruct (br_len G x Dx) as [Lx _], (br_len G y Dy) as [Ly _].
  assert (M := m_matrix_monotone n u c (br_pos G) (proj2 (br_dir G)) (J y) (vsub_raw y x) (br_slopes G y Dy)).
  assert (P : 0 <= vent (vsub_raw y x) i).
  { apply M; [|exact Hi]; intros k Hk.
    assert (C := br_convex G y x k Dy Dx Hk); specialize (Nx k Hk); specialize (Ny k Hk).
    assert (E : app n (J y) (vsub_raw y x) k = - app n (J y) (vsub_raw x y) k).
    { unfold app; replace (- rsum n _) with (-1 * rsum n (fun k0 => ment (J y) k k0 * vent (vsub_raw x y) k0)) by ring.
      rewrite <- rsum_scal_l; apply rsum_ext; intros j Hj; rewrite !sub_vent by assumption; ring. }
    lra. }
  rewrite sub_vent in P by assumption; lra.
Qed.

(** The points the run goes through. *)
Definition between (x : vec R) : Prop :=
  length x = n /\ below n lo x /\ below n x hi /\ forall i, (i < n)%nat -> 0 <= vent (f x) i.

Lemma between_D x : between x -> D x.
Proof. intros (L & B1 & B2 & _); apply (br_box G); assumption. Qed.
Lemma between_hi : between hi.
Proof.
  split; [exact (br_hi G)|]; split; [|split; [intros i Hi; lra|exact (br_over G)]].
  apply residuals_order; [apply (br_in G)|apply (br_in G)|exact (br_under G)|exact (br_over G)].
Qed.

(** The matrices the method may use at [x]. *)
Definition steeper (x : vec R) (B : mat R) : Prop :=
  square n B /\ (forall i j, (i < n)%nat -> (j < n)%nat -> i <> j -> ment B i j <= 0) /\
  forall i j, (i < n)%nat -> (j < n)%nat -> ment (J x) i j <= ment B i j.

Lemma steeper_m x B : D x -> steeper x B -> m_matrix n u c B.
Proof.
  intros Dx (S1 & S2 & S3); apply (m_matrix_above n u c (proj2 (br_dir G)) (J x)); auto.
  apply (br_slopes G), Dx.
Qed.
Lemma steeper_self x : D x -> steeper x (J x).
Proof.
  intros Dx; destruct (br_slopes G x Dx) as [S O _]; split; [exact S|]; split; [exact O|intros; lra].
Qed.

Lemma app_order B v w i : (forall j, (j < n)%nat -> ment B i j * vent v j <= ment B i j * vent w j) ->
  app n B v i <= app n B w i.
Proof. intros H; unfold app; apply LocalFacts.rsum_le; exact H. Qed.

(** One step with such a matrix goes down and not too far. *)
Lemma step_down x B H : between x -> steeper x B -> lu_inverse B = Some H ->
  between (newton_point f H x) /\ below n (newton_point f H x) x /\
  forall mu, (forall i j, (i < n)%nat -> (j < n)%nat -> ment B i j <= mu) ->
    forall i, (i < n)%nat -> vent (f x) i <= mu * (total n x - total n (newton_point f H x)).
Proof.
  intros BX SB EH; assert (Dx := between_D x BX); destruct BX as (Lx & BL & BH & FP).
  destruct (br_len G x Dx) as [_ Lf].
  assert (MM := steeper_m x B Dx SB).
  destruct (m_matrix_inverts n u c (br_pos G) (proj2 (br_dir G)) B MM) as (H' & EH' & SH & IN).
  rewrite EH in EH'; injection EH' as <-.
  destruct SB as (SQ & _ & LE).
  set (w := newton_point f H x).
  assert (Lw : length w = n) by (apply (newton_point_length n); assumption).
  assert (EQ : forall k, (k < n)%nat -> app n B (vsub_raw w x) k = - vent (f x) k)
    by (intros k Hk; apply newton_equation; assumption).
  assert (OPP : forall A y z k, length y = n -> length z = n -> app n A (vsub_raw y z) k = - app n A (vsub_raw z y) k).
  { intros A y z k Ly Lz; unfold app.
    replace (- rsum n _) with (-1 * rsum n (fun k0 => ment A k k0 * vent (vsub_raw z y) k0)) by ring.
    rewrite <- rsum_scal_l; apply rsum_ext; intros j Hj; rewrite !sub_vent by assumption; ring. }
  assert (WX : below n w x).
  { intros i Hi; assert (P : 0 <= vent (vsub_raw x w) i).
    { apply (m_matrix_monotone n u c (br_pos G) (proj2 (br_dir G)) B _ MM); [|exact Hi].
      intros k Hk; rewrite OPP, EQ by assumption; specialize (FP k Hk); lra. }
    rewrite sub_vent in P by assumption; lra. }
  assert (DL : D lo) by apply (br_in G); assert (LL := br_lo G).
  assert (LW : below n lo w).
  { intros i Hi; assert (P : 0 <= vent (vsub_raw w lo) i).
    { apply (m_matrix_monotone n u c (br_pos G) (proj2 (br_dir G)) B _ MM); [|exact Hi].
      intros k Hk.
      assert (S1 : app n B (vsub_raw w lo) k = app n B (vsub_raw w x) k + app n B (vsub_raw x lo) k).
      { unfold app; rewrite <- rsum_plus; apply rsum_ext; intros j Hj; rewrite !sub_vent by assumption; ring. }
      assert (S2 : app n (J x) (vsub_raw x lo) k <= app n B (vsub_raw x lo) k).
      { unfold app; apply LocalFacts.rsum_le; intros j Hj; apply Rmult_le_compat_r; [|apply LE; assumption].
        rewrite sub_vent by assumption; specialize (BL j Hj); lra. }
      assert (S3 := br_convex G x lo k Dx DL Hk).
      rewrite OPP in S2 by assumption.
      specialize (EQ k Hk); assert (S4 := br_under G k Hk); lra. }
    rewrite sub_vent in P by assumption; lra. }
  assert (WH : below n w hi) by (intros i Hi; specialize (WX i Hi); specialize (BH i Hi); lra).
  assert (Dw : D w) by (apply (br_box G); assumption).
  split; [|split; [exact WX|]].
  - split; [exact Lw|]; split; [exact LW|]; split; [exact WH|]; intros i Hi.
    assert (C := br_convex G x w i Dx Dw Hi); specialize (EQ i Hi).
    assert (S2 : app n B (vsub_raw w x) i <= app n (J x) (vsub_raw w x) i).
    { unfold app; apply LocalFacts.rsum_le; intros j Hj; rewrite sub_vent by assumption.
      specialize (WX j Hj); specialize (LE i j Hi Hj).
      assert (0 <= (ment B i j - ment (J x) i j) * (vent x j - vent w j)) by (apply Rmult_le_pos; lra).
      lra. }
    lra.
  - intros mu HM i Hi.
    replace (vent (f x) i) with (app n B (vsub_raw x w) i) by (rewrite OPP, EQ by assumption; ring).
    unfold total; rewrite <- rsum_minus, <- rsum_scal_l; unfold app.
    apply LocalFacts.rsum_le; intros j Hj; rewrite sub_vent by assumption.
    apply Rmult_le_compat_r; [specialize (WX j Hj); lra|apply HM; assumption].
Qed.

(** ** The run *)
Context (K : vec R -> mat R) (HK : forall x, between x -> steeper x (K x)) (mu : R) (Pmu : 0 <= mu)
  (HMU : forall x i j, between x -> (i < n)%nat -> (j < n)%nat -> ment (K x) i j <= mu)
  (U : vec R -> vec R) (HU : forall x, D x -> U x = f x).

Lemma down_point x H : between x -> newton_point U H x = newton_point f H x.
Proof. intros W; unfold newton_point; rewrite HU by (apply between_D, W); reflexivity. Qed.
Lemma total_below x y : below n x y -> total n x <= total n y.
Proof. intros B; apply LocalFacts.rsum_le; exact B. Qed.

Lemma amax_over x t : between x -> t < amax (f x) -> 0 <= t -> exists i, (i < n)%nat /\ t < vent (f x) i.
Proof.
  intros W T Pt; destruct (br_len G x (between_D x W)) as [_ Lf].
  destruct (Rle_lt_dec (amax (f x)) t) as [L|_]; [lra|].
  assert (N : ~ forall i, (i < n)%nat -> vent (f x) i <= t).
  { intros A; assert (amax (f x) <= t); [|lra].
    apply amax_le; [exact Pt|]; intros i Hi; rewrite Lf in Hi.
    destruct W as (_ & _ & _ & P); rewrite Rabs_right by (specialize (P i Hi); lra); apply A, Hi. }
  assert (EX : forall m, (forall i, (i < m)%nat -> vent (f x) i <= t) \/ exists i, (i < m)%nat /\ t < vent (f x) i).
  { induction m as [|m [IH|(i & Hi & Q)]].
    - left; intros; lia.
    - destruct (Rle_lt_dec (vent (f x) m) t) as [L|L].
      + left; intros i Hi; destruct (Nat.eq_dec i m) as [->|E]; [exact L|apply IH; lia].
      + right; exists m; split; [lia|exact L].
    - right; exists i; split; [lia|exact Q]. }
  destruct (EX n) as [A|E]; [contradiction (N A)|exact E].
Qed.

Lemma monotone_run tol : 0 <= tol -> forall budget x, between x -> exists k y,
  newton_run K U (fun x => amax (vabs (U x))) (Fin tol) budget x = (k, y, false) /\
  between y /\ below n y x /\ (k <= budget)%nat /\ ((k < budget)%nat -> amax (f y) <= tol) /\
  INR k * tol <= mu * (total n x - total n y).
Proof.
  intros Pt; induction budget as [|budget IH]; intros x W; cbn [newton_run].
  - exists O, x; split; [reflexivity|]; split; [exact W|]; split; [intros i _; lra|].
    split; [lia|]; split; [lia|]; cbn [INR]; lra.
  - rewrite amax_vabs, (HU x (between_D x W)); cbn [xltb].
    destruct (Rltb tol (amax (f x))) eqn:T.
    + apply Rltb_true in T.
      destruct (m_matrix_inverts n u c (br_pos G) (proj2 (br_dir G)) (K x)
        (steeper_m x (K x) (between_D x W) (HK x W))) as (H & EH & _); rewrite EH.
      rewrite down_point by exact W.
      destruct (step_down x (K x) H W (HK x W) EH) as (W1 & B1 & S1).
      destruct (IH _ W1) as (k & y & -> & WY & BY & LY & T1 & T2).
      exists (S k), y; split; [reflexivity|]; split; [exact WY|]; split.
      { intros i Hi; specialize (B1 i Hi); specialize (BY i Hi); lra. }
      split; [lia|]; split; [intros; apply T1; lia|].
      destruct (amax_over x tol W T Pt) as (i & Hi & Q).
      specialize (S1 mu (fun i j => HMU x i j W) i Hi); rewrite S_INR; lra.
    + apply Rltb_false in T; exists O, x; split; [reflexivity|]; split; [exact W|]; split; [intros i _; lra|].
      split; [lia|]; split; [intros; exact T|]; cbn [INR]; lra.
Qed.
End Monotone.

(** ** The root *)
Lemma squeeze a (s : nat -> R) l b : Un_cv s l -> 0 <= b -> (forall k, a <= b * (s k - l)) -> a <= 0.
Proof.
  intros CV Pb H; apply le_epsilon; intros eps Pe.
  destruct (CV (eps / (b + 1)) ltac:(apply Rdiv_lt_0_compat; lra)) as [N HN].
  specialize (HN N (Nat.le_refl _)); unfold R_dist in HN; specialize (H N).
  assert (s N - l <= eps / (b + 1)) by (revert HN; unfold Rabs; destruct Rcase_abs; lra).
  eapply Rle_trans; [exact H|]; rewrite Rplus_0_l.
  apply Rle_trans with (b * (eps / (b + 1))); [apply Rmult_le_compat_l; assumption|].
  replace eps with ((b + 1) * (eps / (b + 1))) at 2 by (field; lra).
  assert (0 < eps / (b + 1)) by (apply Rdiv_lt_0_compat; lra); apply Rmult_le_compat_r; lra.
Qed.

Lemma limits_exist n (s : nat -> vec R) (lo : vec R) :
  (forall k i, (i < n)%nat -> vent (s (S k)) i <= vent (s k) i) ->
  (forall k i, (i < n)%nat -> vent lo i <= vent (s k) i) ->
  exists l, length l = n /\ forall i, (i < n)%nat -> Un_cv (fun k => vent (s k) i) (vent l i).
Proof.
  intros DEC LB.
  assert (EX : forall m, (m <= n)%nat -> exists l, length l = m /\
    forall i, (i < m)%nat -> Un_cv (fun k => vent (s k) i) (vent l i)).
  { induction m as [|m IH]; intros Lm.
    - exists []; split; [reflexivity|intros; lia].
    - destruct (IH ltac:(lia)) as (l & Ll & CV).
      destruct (decreasing_cv (fun k => vent (s k) m)) as [a Ha].
      + intros k; apply DEC; lia.
      + exists (- vent lo m); intros z [k ->]; unfold opp_seq; specialize (LB k m ltac:(lia)); lra.
      + exists (l ++ [a])%list; split; [rewrite app_length, Ll; cbn; lia|].
        intros i Hi; unfold vent at 2; destruct (Nat.eq_dec i m) as [->|Ne].
        * rewrite app_nth2, Ll, Nat.sub_diag by lia; exact Ha.
        * rewrite app_nth1 by lia; apply CV; lia. }
  exact (EX n (Nat.le_refl _)).
Qed.

Lemma rsum_cv : forall n (g : nat -> nat -> R) l, (forall i, (i < n)%nat -> Un_cv (fun k => g k i) (l i)) ->
  Un_cv (fun k => rsum n (g k)) (rsum n l).
Proof.
  induction n as [|n IH]; intros g l CV; cbn [rsum].
  - intros eps Pe; exists O; intros; unfold R_dist, Rminus; rewrite Rplus_opp_r, Rabs_R0; exact Pe.
  - apply (CV_plus (fun k => g k O)); [apply CV; lia|].
    apply (IH (fun k i => g k (S i)) (fun i => l (S i))); intros; apply CV; lia.
Qed.

Lemma total_cv n (s : nat -> vec R) l : (forall i, (i < n)%nat -> Un_cv (fun k => vent (s k) i) (vent l i)) ->
  Un_cv (fun k => total n (s k)) (total n l).
Proof. apply (rsum_cv n (fun k => vent (s k)) (vent l)). Qed.

Definition sole_root (n : nat) (f : vec R -> vec R) (D : vec R -> Prop) (xs : vec R) : Prop :=
  forall z, D z -> (forall i, (i < n)%nat -> vent (f z) i = 0) <-> z = xs.

Lemma below_both n x y : length x = n -> length y = n -> below n x y -> below n y x -> x = y.
Proof.
  intros Lx Ly B1 B2; apply (near_equal n x y Lx).
  split; [exact Ly|]; intros i Hi; specialize (B1 i Hi); specialize (B2 i Hi).
  replace (vent y i - vent x i) with 0 by lra; rewrite Rabs_R0; lra.
Qed.

Theorem C95_root : forall n f J D u c lo hi mu, bracketed n f J D u c lo hi -> 0 <= mu ->
  (forall x i j, D x -> (i < n)%nat -> (j < n)%nat -> ment (J x) i j <= mu) ->
  exists xs, D xs /\ below n lo xs /\ below n xs hi /\ sole_root n f D xs.
Proof.
  intros n f J D u c lo hi mu G Pmu HMU.
  set (nx := fun x => match lu_inverse (J x) with Some H => newton_point f H x | None => x end).
  set (s := fix s k := match k with O => hi | S k' => nx (s k') end).
  assert (STEP : forall x, between n f lo hi x -> between n f lo hi (nx x) /\ below n (nx x) x /\
    forall i, (i < n)%nat -> vent (f x) i <= mu * (total n x - total n (nx x))).
  { intros x W; assert (Dx := between_D n f J D u c lo hi G x W).
    destruct (m_matrix_inverts n u c (br_pos _ _ _ _ _ _ _ _ G) (proj2 (br_dir _ _ _ _ _ _ _ _ G)) (J x)
      (br_slopes _ _ _ _ _ _ _ _ G x Dx)) as (H & EH & _).
    unfold nx; rewrite EH.
    destruct (step_down n f J D u c lo hi G x (J x) H W (steeper_self n f J D u c lo hi G x Dx) EH) as (A1 & A2 & A3).
    split; [exact A1|]; split; [exact A2|]; apply A3; intros i j; apply HMU, Dx. }
  assert (BT : forall k, between n f lo hi (s k)).
  { induction k as [|k IH]; [exact (between_hi n f J D u c lo hi G)|apply STEP, IH]. }
  assert (DEC : forall k i, (i < n)%nat -> vent (s (S k)) i <= vent (s k) i)
    by (intros k; apply (STEP (s k) (BT k))).
  assert (LB : forall k i, (i < n)%nat -> vent lo i <= vent (s k) i) by (intros k; apply (BT k)).
  destruct (limits_exist n s lo DEC LB) as (xs & Lxs & CV).
  assert (UP : forall k i, (i < n)%nat -> vent xs i <= vent (s k) i).
  { intros k i Hi.
    assert (X := decreasing_ineq (fun k => vent (s k) i) (vent xs i) (fun k => DEC k i Hi) (CV i Hi) k); exact X. }
  assert (BL : below n lo xs).
  { intros i Hi; destruct (Rle_lt_dec (vent lo i) (vent xs i)) as [L|L]; [exact L|exfalso].
    destruct (CV i Hi (vent lo i - vent xs i) ltac:(lra)) as [N HN].
    specialize (HN N (Nat.le_refl _)); specialize (LB N i Hi); unfold R_dist in HN.
    revert HN; unfold Rabs; destruct Rcase_abs; lra. }
  assert (BH : below n xs hi) by (intros i Hi; exact (UP O i Hi)).
  assert (DX : D xs) by (apply (br_box _ _ _ _ _ _ _ _ G); assumption).
  assert (TC := total_cv n s xs CV).
  assert (ZERO : forall i, (i < n)%nat -> vent (f xs) i = 0).
  { intros i Hi; apply Rle_antisym.
    - set (b := rsum n (fun j => Rabs (ment (J xs) i j))).
      assert (Pb : 0 <= b) by (apply rsum_nonneg; intros; apply Rabs_pos).
      apply (squeeze _ (fun k => total n (s k)) (total n xs) (mu + b) TC); [lra|]; intros k.
      assert (C := br_convex _ _ _ _ _ _ _ _ G xs (s k) i DX (between_D _ _ _ _ _ _ _ _ G _ (BT k)) Hi).
      assert (F1 := proj2 (proj2 (STEP (s k) (BT k))) i Hi).
      change (nx (s k)) with (s (S k)) in F1.
      assert (T1 : total n xs <= total n (s (S k))) by (apply total_below; intros j Hj; apply UP, Hj).
      assert (Lk : length (s k) = n) by apply (BT k).
      assert (Q : - (b * (total n (s k) - total n xs)) <= app n (J xs) (vsub_raw (s k) xs) i).
      { assert (R : Rabs (app n (J xs) (vsub_raw (s k) xs) i) <= b * (total n (s k) - total n xs)).
        { unfold app; eapply Rle_trans; [apply rsum_abs|].
          unfold b; rewrite <- rsum_scal_r; apply LocalFacts.rsum_le; intros j Hj; rewrite Rabs_mult.
          apply Rmult_le_compat_l; [apply Rabs_pos|].
          rewrite (sub_vent n) by assumption; specialize (UP k j Hj).
          rewrite Rabs_right by lra; unfold total; rewrite <- rsum_minus.
          assert (X := LocalFacts.rsum_le n (fun i0 => if Nat.eqb i0 j then vent (s k) j - vent xs j else 0)
            (fun i0 => vent (s k) i0 - vent xs i0)).
          rewrite (rsum_single n j) in X; [rewrite Nat.eqb_refl in X; apply X| exact Hj|].
          - intros i0 Hi0; destruct (Nat.eqb i0 j) eqn:E; [apply Nat.eqb_eq in E; subst; lra|].
            assert (Y := decreasing_ineq (fun k => vent (s k) i0) (vent xs i0) (fun k => DEC k i0 Hi0) (CV i0 Hi0) k).
            cbv beta in Y; lra.
          - intros i0 Hi0 N; apply Nat.eqb_neq in N; rewrite N; reflexivity. }
        revert R; unfold Rabs; destruct Rcase_abs; lra. }
      assert (mu * (total n (s k) - total n (s (S k))) <= mu * (total n (s k) - total n xs))
        by (apply Rmult_le_compat_l; lra).
      lra.
    - apply Ropp_le_cancel; rewrite Ropp_0.
      apply (squeeze _ (fun k => total n (s k)) (total n xs) mu TC Pmu); intros k.
      assert (Dk := between_D _ _ _ _ _ _ _ _ G _ (BT k)).
      assert (C := br_convex _ _ _ _ _ _ _ _ G (s k) xs i Dk DX Hi).
      assert (Lk : length (s k) = n) by apply (BT k).
      assert (P := proj2 (proj2 (proj2 (BT k))) i Hi).
      assert (Q : - (mu * (total n (s k) - total n xs)) <= app n (J (s k)) (vsub_raw xs (s k)) i).
      { unfold total; rewrite <- rsum_minus, <- rsum_scal_l.
        replace (- rsum n _) with (-1 * rsum n (fun i0 => mu * (vent (s k) i0 - vent xs i0))) by ring.
        rewrite <- rsum_scal_l; unfold app; apply LocalFacts.rsum_le; intros j Hj.
        rewrite (sub_vent n) by assumption; specialize (UP k j Hj).
        specialize (HMU (s k) i j Dk Hi Hj).
        assert (0 <= (mu - ment (J (s k)) i j) * (vent (s k) j - vent xs j)) by (apply Rmult_le_pos; lra).
        lra. }
      lra. }
  exists xs; split; [exact DX|]; split; [exact BL|]; split; [exact BH|].
  intros z Dz; split; [|intros ->; exact ZERO]; intros Zz.
  destruct (br_len _ _ _ _ _ _ _ _ G z Dz) as [Lz _].
  apply (below_both n); try assumption; apply (residuals_order n f J D u c lo hi G); auto;
    intros i Hi; rewrite ?Zz, ?ZERO by exact Hi; lra.
Qed.
Print Assumptions C95_root.

(** The root in the place of the point below. *)
Lemma bracket_root n f J D u c lo hi xs : bracketed n f J D u c lo hi -> D xs -> below n lo xs -> below n xs hi ->
  sole_root n f D xs -> bracketed n f J D u c xs hi.
Proof.
  intros G DX BL BH RX; assert (Z := proj2 (RX xs DX) eq_refl); destruct G; constructor; try assumption.
  - apply br_len0, DX.
  - intros w Lw B1 B2; apply br_box0; [exact Lw| |exact B2]; intros i Hi; specialize (BL i Hi); specialize (B1 i Hi); lra.
  - split; [exact DX|apply br_in0].
  - intros i Hi; rewrite Z by exact Hi; lra.
Qed.
Lemma bracket_between n f lo hi xs x : below n lo xs -> between n f xs hi x -> between n f lo hi x.
Proof.
  intros BL (L & B1 & B2 & P); split; [exact L|]; split; [|split; assumption].
  intros i Hi; specialize (BL i Hi); specialize (B1 i Hi); lra.
Qed.

(** How far above the root. *)
Lemma above_root n f J D u c xs hi y : bracketed n f J D u c xs hi -> (forall i, (i < n)%nat -> vent (f xs) i = 0) ->
  between n f xs hi y -> forall i, (i < n)%nat -> vent y i - vent xs i <= amax (f y) / c * vent u i.
Proof.
  intros G Z W i Hi; assert (DY := between_D _ _ _ _ _ _ _ _ G y W).
  destruct (br_len _ _ _ _ _ _ _ _ G y DY) as [Ly Lf]; assert (Lx := br_lo _ _ _ _ _ _ _ _ G).
  assert (DX : D xs) by apply (br_in _ _ _ _ _ _ _ _ G); assert (Pc := br_pos _ _ _ _ _ _ _ _ G).
  destruct (br_dir _ _ _ _ _ _ _ _ G) as [Lu Pu]; assert (MM := br_slopes _ _ _ _ _ _ _ _ G xs DX).
  set (g := fun j => amax (f y) / c * vent u j - (vent y j - vent xs j)); set (v := map g (seq 0 n)).
  assert (EV : forall j, (j < n)%nat -> vent v j = amax (f y) / c * vent u j - (vent y j - vent xs j)).
  { intros j Hj; unfold v, vent at 1; rewrite (nth_indep _ _ (g O)) by (rewrite map_length, seq_length; exact Hj).
    rewrite map_nth, seq_nth by exact Hj; reflexivity. }
  assert (P : 0 <= vent v i); [|rewrite EV in P by exact Hi; lra].
  apply (m_matrix_monotone n u c Pc Pu (J xs) v MM); [|exact Hi]; intros k Hk.
  assert (E : app n (J xs) v k = amax (f y) / c * app n (J xs) u k - app n (J xs) (vsub_raw y xs) k).
  { unfold app; rewrite <- rsum_scal_l, <- rsum_minus; apply rsum_ext; intros j Hj.
    rewrite EV, (sub_vent n) by assumption; ring. }
  assert (C := br_convex _ _ _ _ _ _ _ _ G xs y k DX DY Hk); rewrite Z in C by exact Hk.
  assert (A := amax_bound n (f y) k Lf Hk); assert (D1 := mm_dir _ _ _ _ MM k Hk).
  assert (Q : amax (f y) <= amax (f y) / c * app n (J xs) u k).
  { replace (amax (f y)) with (amax (f y) / c * c) at 1 by (field; lra).
    apply Rmult_le_compat_l; [|exact D1]; assert (X := amax_nonneg (f y)).
    apply Rmult_le_pos; [lra|left; apply Rinv_0_lt_compat; exact Pc]. }
  assert (vent (f y) k <= amax (f y)) by (revert A; unfold Rabs; destruct Rcase_abs; lra); lra.
Qed.

(** ** The promise
    After [first] iterations the run is at [x0] and from there on it goes down:
    the point where it ends is between the root and [x0], the residuals are not
    negative there, and every iteration which was needed lowered the sum of the
    variables by [tol / mu] at least. *)
Definition descends {EI EU} (n : nat) (f : vec R -> vec R) (u : vec R) (c : R) (xs x0 : vec R) (mu tol : R)
  (first maxit : nat) (o : outcome (rootfinder XR * user_model XR * result unit (solver_error EI EU))) : Prop :=
  exists rf' s' y,
    um_inputs s' = lift y /\ length y = n /\ below n xs y /\ below n y x0 /\
    (forall i, (i < n)%nat -> 0 <= vent (f y) i) /\
    (forall i, (i < n)%nat -> vent y i - vent xs i <= amax (f y) / c * vent u i) /\
    (first <= rf_iter rf' <= maxit)%nat /\
    INR (rf_iter rf' - first) * tol <= mu * (total n x0 - total n y) /\
    (o = Ret (rf', s', Ok tt) /\ (forall i, (i < n)%nat -> vent (f y) i <= tol) \/
     o = Ret (rf', s', Err NonConvergenceError) /\ rf_iter rf' = maxit /\ amax (f y) > tol) /\
    (mu * (total n x0 - total n xs) < INR (maxit - first) * tol -> o = Ret (rf', s', Ok tt)).

Section Descent.
Context (n : nat) (f : vec R -> vec R) (J : vec R -> mat R) (D : vec R -> Prop) (u : vec R) (c : R)
  (xs hi : vec R) (G : bracketed n f J D u c xs hi) (Z : forall i, (i < n)%nat -> vent (f xs) i = 0)
  (mu : R) (Pmu : 0 <= mu).

Lemma pack_descent {EI EU} (o : outcome (rootfinder XR * user_model XR * result unit (solver_error EI EU)))
  rf' s' k y (U : vec R -> vec R) tol first maxit :
  U y = f y -> um_inputs s' = lift y ->
  o = Ret (rf', s', if xltb (Fin tol) (Fin (amax (vabs (U y)))) then Err NonConvergenceError else Ok tt) ->
  rf_iter rf' = (first + k)%nat -> between n f xs hi y -> (first + k <= maxit)%nat ->
  ((first + k < maxit)%nat -> amax (f y) <= tol) ->
  INR k * tol <= mu * (total n hi - total n y) ->
  descends n f u c xs hi mu tol first maxit o.
Proof.
  intros EY EI' HO EK W LK T1 T2; rewrite amax_vabs, EY in HO; cbn [xltb] in HO.
  destruct (br_len _ _ _ _ _ _ _ _ G y (between_D _ _ _ _ _ _ _ _ G y W)) as [Ly Lf].
  assert (AB := above_root n f J D u c xs hi y G Z W); destruct W as (_ & B1 & B2 & P).
  exists rf', s', y; rewrite EK; split; [exact EI'|]; split; [exact Ly|]; split; [exact B1|]; split; [exact B2|].
  split; [exact P|]; split; [exact AB|]; split; [lia|].
  replace (first + k - first)%nat with k by lia; split; [exact T2|].
  destruct (Rltb tol (amax (f y))) eqn:T.
  - apply Rltb_true in T.
    assert (E : (first + k)%nat = maxit) by (destruct (Nat.eq_dec (first + k) maxit); [assumption|]; specialize (T1 ltac:(lia)); lra).
    split; [right; split; [exact HO|]; split; [exact E|lra]|].
    intros Q; exfalso; replace (maxit - first)%nat with k in Q by lia.
    assert (TB := total_below n xs y B1).
    assert (mu * (total n hi - total n y) <= mu * (total n hi - total n xs)) by (apply Rmult_le_compat_l; lra); lra.
  - apply Rltb_false in T; split; [left; split; [exact HO|]|intros _; exact HO].
    intros i Hi; assert (A := amax_bound n (f y) i Lf Hi); revert A; unfold Rabs; destruct Rcase_abs; lra.
Qed.

Lemma descent_fun func : (forall x, D x -> func (lift x) = lift (f x)) ->
  forall x, D x -> length x = n -> func (lift x) = lift (f x) /\ length (f x) = n.
Proof. intros Hf x Dx _; split; [apply Hf, Dx|apply (br_len _ _ _ _ _ _ _ _ G x Dx)]. Qed.
Lemma descent_residuals x : D x -> residuals_of f (fun _ => vzeros n) x = f x.
Proof. intros N; apply residuals_of_zero; apply (br_len _ _ _ _ _ _ _ _ G x N). Qed.
End Descent.

(** Newton-Raphson with the jacobian written by the user, which may be too steep. *)
Theorem C95_newton : forall n func jac (f : vec R -> vec R) (J JA : vec R -> mat R) (D : vec R -> Prop) u c lo x0 mu,
  (forall x, D x -> func (lift x) = lift (f x)) ->
  (forall x, D x -> jac (lift x) = liftm (JA x) /\ steeper n J x (JA x) /\
    forall i j, (i < n)%nat -> (j < n)%nat -> ment (JA x) i j <= mu) -> 0 <= mu ->
  bracketed n f J D u c lo x0 ->
  exists xs, D xs /\ below n lo xs /\ sole_root n f D xs /\
  forall tol maxit rf, 0 <= tol ->
  rootfinder_new (mkSolverParameters n (Fin tol) maxit NewtonRaphson false) (lift x0)
    (jac_iteratives n) (all_abs n) = Ret rf ->
  descends n f u c xs x0 mu tol 0 maxit
    (solve (model_from_function_and_jacobian func jac) rf (user_model_new n)).
Proof.
  intros n func jac f J JA D u c lo x0 mu Hf HJ Pmu G0.
  destruct (C95_root n f J D u c lo x0 mu G0 Pmu) as (xs & DX & BL & BH & RX).
  { intros x i j Dx Hi Hj; destruct (HJ x Dx) as (_ & (_ & _ & LE) & M).
    eapply Rle_trans; [apply LE|apply M]; assumption. }
  exists xs; split; [exact DX|]; split; [exact BL|]; split; [exact RX|].
  assert (G := bracket_root n f J D u c lo x0 xs G0 DX BL BH RX); clear G0.
  assert (Z := proj2 (RX xs DX) eq_refl).
  intros tol maxit rf Pt HN; apply new_fields in HN.
  assert (Hf' := descent_fun n f J D u c xs x0 G func Hf).
  assert (HJ' : forall x, D x -> length x = n -> jac (lift x) = liftm (JA x) /\ is_mat n (JA x))
    by (intros x Dx _; split; apply (HJ x Dx)).
  assert (FP := adapter_problem n D func f Hf' (fun _ => true) (um_get_jacobian jac)).
  assert (WB := abs_well_behaved _ n _ _ _ _ FP).
  assert (HA := adapter_analytic n D func f Hf' jac JA HJ').
  set (M := model_from_function_and_jacobian func jac) in *.
  assert (HU := descent_residuals n f J D u c xs x0 G).
  set (U := residuals_of f (fun _ => vzeros n)) in *.
  set (P := between n f xs x0).
  assert (PD : forall x, P x -> D x) by exact (between_D _ _ _ _ _ _ _ _ G).
  assert (SOL := newton_solve M n (all_abs n) (adapter_good n) D f (fun _ => vzeros n) U
    (fun x => vabs (U x)) WB (jac_iteratives n) JA (fun x => x) (Fin tol) false P).
  specialize (SOL ltac:(intros rf1 x s _ _ _; left; exists JA; auto)).
  assert (HP : forall x H, P x -> length x = n -> xltb (Fin tol) (Fin (amax (vabs (U x)))) = true ->
    lu_inverse (JA x) = Some H ->
    P (newton_point U H x) /\ D (newton_point U H x) /\
    (false = true -> amax (vabs (U (newton_point U H x))) <= amax (vabs (U x)))).
  { intros x H W _ _ EH.
    rewrite (down_point _ _ _ _ _ _ _ _ G U HU x H W).
    destruct (step_down _ _ _ _ _ _ _ _ G x (JA x) H W (proj1 (proj2 (HJ x (PD x W)))) EH) as (W1 & _ & _).
    split; [exact W1|]; split; [exact (PD _ W1)|discriminate]. }
  specialize (SOL HP rf (user_model_new n) x0).
  assert (NC : newton_config n (all_abs n) rf).
  { subst rf; repeat split; [apply default_jac_unlimited|].
    cbn [rf_iters_params]; unfold jac_iteratives, default_vec_iteratives.
    rewrite map_length, repeat_length; reflexivity. }
  assert (MI : sp_max_iter (rf_parameters rf) = maxit) by (subst rf; reflexivity).
  rewrite MI in SOL.
  assert (W0 := between_hi _ _ _ _ _ _ _ _ G).
  specialize (SOL NC ltac:(subst rf; reflexivity) ltac:(subst rf; reflexivity)
    ltac:(subst rf; reflexivity) ltac:(subst rf; reflexivity) ltac:(subst rf; reflexivity)
    ltac:(subst rf; reflexivity) (br_hi _ _ _ _ _ _ _ _ G) W0 (PD _ W0) (fresh_good n)).
  destruct (monotone_run n f J D u c xs x0 G JA (fun x W => proj1 (proj2 (HJ x (PD x W)))) mu
    (fun x i j W => proj2 (proj2 (HJ x (PD x W))) i j) U HU tol Pt maxit x0 W0)
    as (k & y & ER & WY & Q); cbv beta in *.
  rewrite ER in SOL; destruct SOL as (rf' & s' & _ & SOL & SA & SI).
  destruct Q as (Q1 & Q2 & Q3 & Q4).
  apply (pack_descent n f J D u c xs x0 G Z mu Pmu _ rf' s' k y U); [exact (HU _ (PD _ WY))|apply SA|assumption..].
Qed.
Print Assumptions C95_newton.

(** The guess may be anywhere, below the root or beside it, when the jacobian is
    the right one: the first point after it is above, provided that it is in the
    domain. *)
Lemma first_above n (f : vec R -> vec R) J (D : vec R -> Prop) x0 hi :
  (forall x y i, D x -> D y -> (i < n)%nat -> app n (J x) (vsub_raw y x) i <= vent (f y) i - vent (f x) i) ->
  D x0 -> D hi -> (forall i, (i < n)%nat -> app n (J x0) (vsub_raw hi x0) i = - vent (f x0) i) ->
  forall i, (i < n)%nat -> 0 <= vent (f hi) i.
Proof. intros CX D0 D1 E i Hi; specialize (CX x0 hi i D0 D1 Hi); rewrite E in CX by exact Hi; lra. Qed.

Theorem C95_any_guess : forall n func jac (f : vec R -> vec R) (J : vec R -> mat R) (D : vec R -> Prop) u c lo x0 hi mu,
  (forall x, D x -> func (lift x) = lift (f x)) ->
  (forall x, D x -> jac (lift x) = liftm (J x) /\
    forall i j, (i < n)%nat -> (j < n)%nat -> ment (J x) i j <= mu) -> 0 <= mu ->
  bracketed n f J D u c lo hi -> D x0 ->
  (forall i, (i < n)%nat -> app n (J x0) (vsub_raw hi x0) i = - vent (f x0) i) ->
  exists xs, D xs /\ below n lo xs /\ sole_root n f D xs /\
  forall tol maxit rf, 0 <= tol -> (1 <= maxit)%nat ->
  rootfinder_new (mkSolverParameters n (Fin tol) maxit NewtonRaphson false) (lift x0)
    (jac_iteratives n) (all_abs n) = Ret rf ->
  let o := solve (model_from_function_and_jacobian func jac) rf (user_model_new n) in
  (amax (f x0) <= tol /\ exists rf' s', o = Ret (rf', s', Ok tt) /\ rf_iter rf' = O /\ um_inputs s' = lift x0) \/
  tol < amax (f x0) /\ descends n f u c xs hi mu tol 1 maxit o.
Proof.
  intros n func jac f J D u c lo x0 hi mu Hf HJ Pmu G0 D0 E0.
  destruct (C95_root n f J D u c lo hi mu G0 Pmu) as (xs & DX & BL & BH & RX).
  { intros x i j Dx; apply (HJ x Dx). }
  exists xs; split; [exact DX|]; split; [exact BL|]; split; [exact RX|].
  assert (G := bracket_root n f J D u c lo hi xs G0 DX BL BH RX); clear G0.
  assert (Z := proj2 (RX xs DX) eq_refl).
  intros tol maxit rf Pt LM HN o; apply new_fields in HN.
  assert (Hf' := descent_fun n f J D u c xs hi G func Hf).
  assert (SQ : forall x, D x -> square n (J x)) by (intros x Dx; apply (br_slopes _ _ _ _ _ _ _ _ G x Dx)).
  assert (HJ' : forall x, D x -> length x = n -> jac (lift x) = liftm (J x) /\ is_mat n (J x))
    by (intros x Dx _; split; [apply (HJ x Dx)|apply SQ, Dx]).
  assert (FP := adapter_problem n D func f Hf' (fun _ => true) (um_get_jacobian jac)).
  assert (WB := abs_well_behaved _ n _ _ _ _ FP).
  assert (HA := adapter_analytic n D func f Hf' jac J HJ').
  subst o; set (M := model_from_function_and_jacobian func jac) in *.
  assert (HU := descent_residuals n f J D u c xs hi G).
  set (U := residuals_of f (fun _ => vzeros n)) in *.
  destruct (br_len _ _ _ _ _ _ _ _ G x0 D0) as [L0 Lf0]; assert (LH := br_hi _ _ _ _ _ _ _ _ G).
  assert (FIRST : forall H, lu_inverse (J x0) = Some H -> newton_point U H x0 = hi).
  { intros H EH.
    destruct (m_matrix_inverts n u c (br_pos _ _ _ _ _ _ _ _ G) (proj2 (br_dir _ _ _ _ _ _ _ _ G)) (J x0)
      (br_slopes _ _ _ _ _ _ _ _ G x0 D0)) as (H' & EH' & SH & IN).
    rewrite EH in EH'; injection EH' as <-.
    assert (NE : newton_point U H x0 = newton_point f H x0) by (unfold newton_point; rewrite HU by exact D0; reflexivity).
    rewrite NE; set (w := newton_point f H x0).
    assert (Lw : length w = n) by (apply (newton_point_length n); assumption).
    assert (EQ : forall k, (k < n)%nat -> app n (J x0) (vsub_raw w x0) k = - vent (f x0) k)
      by (intros k Hk; apply newton_equation; auto).
    assert (SAME : forall y z, length y = n -> length z = n ->
      (forall k, (k < n)%nat -> app n (J x0) (vsub_raw y x0) k = - vent (f x0) k) ->
      (forall k, (k < n)%nat -> app n (J x0) (vsub_raw z x0) k = - vent (f x0) k) -> below n y z).
    { intros y z Ly Lz Ey Ez i Hi; assert (Q : 0 <= vent (vsub_raw z y) i).
      { apply (m_matrix_monotone n u c (br_pos _ _ _ _ _ _ _ _ G) (proj2 (br_dir _ _ _ _ _ _ _ _ G)) (J x0) _
          (br_slopes _ _ _ _ _ _ _ _ G x0 D0)); [|exact Hi]; intros k Hk.
        replace (app n (J x0) (vsub_raw z y) k)
          with (app n (J x0) (vsub_raw z x0) k - app n (J x0) (vsub_raw y x0) k); [rewrite Ey, Ez by exact Hk; lra|].
        unfold app; rewrite <- rsum_minus; apply rsum_ext; intros j Hj; rewrite !(sub_vent n) by assumption; ring. }
      rewrite (sub_vent n) in Q by assumption; lra. }
    apply (below_both n); auto. }
  set (P := fun x => between n f xs hi x \/ x = x0).
  assert (PB : forall x, between n f xs hi x -> D x) by exact (between_D _ _ _ _ _ _ _ _ G).
  assert (PD : forall x, P x -> D x) by (intros x [W| ->]; [exact (PB x W)|exact D0]).
  assert (W1 := between_hi _ _ _ _ _ _ _ _ G).
  assert (SOL := newton_solve M n (all_abs n) (adapter_good n) D f (fun _ => vzeros n) U
    (fun x => vabs (U x)) WB (jac_iteratives n) J (fun x => x) (Fin tol) false P).
  specialize (SOL ltac:(intros rf1 x s _ _ _; left; exists J; auto)).
  assert (HP : forall x H, P x -> length x = n -> xltb (Fin tol) (Fin (amax (vabs (U x)))) = true ->
    lu_inverse (J x) = Some H ->
    P (newton_point U H x) /\ D (newton_point U H x) /\
    (false = true -> amax (vabs (U (newton_point U H x))) <= amax (vabs (U x)))).
  { intros x H W _ _ EH; cut (between n f xs hi (newton_point U H x)).
    { intros B; split; [left; exact B|]; split; [exact (PB _ B)|discriminate]. }
    destruct W as [W| ->]; [|rewrite FIRST by exact EH; exact W1].
    rewrite (down_point _ _ _ _ _ _ _ _ G U HU x H W).
    apply (step_down _ _ _ _ _ _ _ _ G x (J x) H W (steeper_self _ _ _ _ _ _ _ _ G x (PB x W)) EH). }
  specialize (SOL HP rf (user_model_new n) x0).
  assert (NC : newton_config n (all_abs n) rf).
  { subst rf; repeat split; [apply default_jac_unlimited|].
    cbn [rf_iters_params]; unfold jac_iteratives, default_vec_iteratives.
    rewrite map_length, repeat_length; reflexivity. }
  assert (MI : sp_max_iter (rf_parameters rf) = maxit) by (subst rf; reflexivity).
  rewrite MI in SOL.
  specialize (SOL NC ltac:(subst rf; reflexivity) ltac:(subst rf; reflexivity)
    ltac:(subst rf; reflexivity) ltac:(subst rf; reflexivity) ltac:(subst rf; reflexivity)
    ltac:(subst rf; reflexivity) L0 (or_intror eq_refl) D0 (fresh_good n)).
  destruct maxit as [|budget]; [lia|]; cbn [newton_run] in SOL.
  destruct (m_matrix_inverts n u c (br_pos _ _ _ _ _ _ _ _ G) (proj2 (br_dir _ _ _ _ _ _ _ _ G)) (J x0)
    (br_slopes _ _ _ _ _ _ _ _ G x0 D0)) as (H & EH & _); rewrite EH, (FIRST H EH) in SOL.
  assert (EX0 : amax (vabs (U x0)) = amax (f x0)) by (rewrite amax_vabs, (HU x0 D0); reflexivity).
  cbv beta in SOL; rewrite EX0 in SOL; cbn [xltb] in SOL.
  destruct (Rltb tol (amax (f x0))) eqn:T.
  - right; apply Rltb_true in T; split; [exact T|].
    destruct (monotone_run n f J D u c xs hi G J (fun x W => steeper_self _ _ _ _ _ _ _ _ G x (PB x W)) mu
      (fun x i j W => proj2 (HJ x (PB x W)) i j) U HU tol Pt budget hi W1)
      as (k & y & ER & WY & Q); cbv beta in *.
    rewrite ER in SOL; destruct SOL as (rf' & s' & _ & SOL & SA & SI).
    destruct Q as (Q1 & Q2 & Q3 & Q4).
    apply (pack_descent n f J D u c xs hi G Z mu Pmu _ rf' s' k y U);
      [exact (HU _ (PB _ WY))|apply SA|assumption|exact SI|exact WY|lia|intros; apply Q3; lia|exact Q4].
  - left; apply Rltb_false in T; split; [exact T|].
    destruct SOL as (rf' & s' & _ & SOL & SA & SI).
    rewrite EX0 in SOL; cbn [xltb] in SOL; rewrite (proj2 (Rltb_false tol (amax (f x0))) T) in SOL.
    exists rf', s'; split; [exact SOL|]; split; [exact SI|apply SA].
Qed.
Print Assumptions C95_any_guess.

(** The stationary method: it is enough that the matrix at the guess is steeper
    than the slopes all the way down. *)
Theorem C95_stationary : forall n func jac (f : vec R -> vec R) (J JA : vec R -> mat R) (D : vec R -> Prop) u c lo x0 mu,
  (forall x, D x -> func (lift x) = lift (f x)) ->
  (forall x, D x -> jac (lift x) = liftm (JA x) /\ square n (JA x)) ->
  (forall x, D x -> below n x x0 -> steeper n J x (JA x0)) ->
  (forall i j, (i < n)%nat -> (j < n)%nat -> ment (JA x0) i j <= mu) -> 0 <= mu ->
  (forall x i j, D x -> (i < n)%nat -> (j < n)%nat -> ment (J x) i j <= mu) ->
  bracketed n f J D u c lo x0 ->
  exists xs, D xs /\ below n lo xs /\ sole_root n f D xs /\
  forall tol maxit rf, 0 <= tol ->
  rootfinder_new (mkSolverParameters n (Fin tol) maxit (QuasiNewton StationaryNewton) false) (lift x0)
    (jac_iteratives n) (all_abs n) = Ret rf ->
  descends n f u c xs x0 mu tol 0 maxit
    (solve (model_from_function_and_jacobian func jac) rf (user_model_new n)).
Proof.
  intros n func jac f J JA D u c lo x0 mu Hf HJ ST0 MU0 Pmu MU1 G0.
  destruct (C95_root n f J D u c lo x0 mu G0 Pmu MU1) as (xs & DX & BL & BH & RX).
  exists xs; split; [exact DX|]; split; [exact BL|]; split; [exact RX|].
  assert (G := bracket_root n f J D u c lo x0 xs G0 DX BL BH RX); clear G0.
  assert (Z := proj2 (RX xs DX) eq_refl).
  intros tol maxit rf Pt HN; apply new_fields in HN.
  assert (Hf' := descent_fun n f J D u c xs x0 G func Hf).
  assert (HJ' : forall x, D x -> length x = n -> jac (lift x) = liftm (JA x) /\ is_mat n (JA x))
    by (intros x Dx _; split; apply (HJ x Dx)).
  assert (FP := adapter_problem n D func f Hf' (fun _ => true) (um_get_jacobian jac)).
  assert (WB := abs_well_behaved _ n _ _ _ _ FP).
  assert (HA := adapter_analytic n D func f Hf' jac JA HJ').
  set (M := model_from_function_and_jacobian func jac) in *.
  assert (HU := descent_residuals n f J D u c xs x0 G).
  set (U := residuals_of f (fun _ => vzeros n)) in *.
  set (P := between n f xs x0).
  assert (PD : forall x, P x -> D x) by exact (between_D _ _ _ _ _ _ _ _ G).
  assert (SP : forall x, P x -> steeper n J x (JA x0)) by (intros x W; apply ST0; [exact (PD x W)|apply W]).
  assert (W0 := between_hi _ _ _ _ _ _ _ _ G).
  destruct (m_matrix_inverts n u c (br_pos _ _ _ _ _ _ _ _ G) (proj2 (br_dir _ _ _ _ _ _ _ _ G)) (JA x0)
    (steeper_m _ _ _ _ _ _ _ _ G x0 (JA x0) (PD _ W0) (SP _ W0))) as (H & EH & SH & _).
  assert (HP : forall x, P x -> length x = n -> xltb (Fin tol) (Fin (amax (vabs (U x)))) = true ->
    P (newton_point U H x) /\ D (newton_point U H x)).
  { intros x W _ _; rewrite (down_point _ _ _ _ _ _ _ _ G U HU x H W).
    destruct (step_down _ _ _ _ _ _ _ _ G x (JA x0) H W (SP x W) EH) as (W1 & _ & _).
    split; [exact W1|exact (PD _ W1)]. }
  assert (SOL := stationary_solve_damped M n (all_abs n) (adapter_good n) D f (fun _ => vzeros n) U
    (fun x => vabs (U x)) WB H SH (Fin tol) P HP rf (user_model_new n) x0 (JA x0) x0).
  assert (NC : plain n (all_abs n) (QuasiNewton StationaryNewton) rf).
  { subst rf; repeat split; [apply default_jac_unlimited|].
    cbn [rf_iters_params]; unfold jac_iteratives, default_vec_iteratives.
    rewrite map_length, repeat_length; reflexivity. }
  assert (MI : sp_max_iter (rf_parameters rf) = maxit) by (subst rf; reflexivity).
  rewrite MI in SOL.
  assert (ND : sp_damping (rf_parameters rf) = false) by (subst rf; reflexivity).
  specialize (SOL NC (or_introl ND)
    (fun _ => or_introl ND) ltac:(subst rf; reflexivity)
    ltac:(subst rf; reflexivity) ltac:(subst rf; reflexivity) ltac:(subst rf; reflexivity)
    ltac:(subst rf; reflexivity) (br_hi _ _ _ _ _ _ _ _ G) W0 (PD _ W0) (fresh_good n)
    ltac:(intros s1 _; left; exists JA; auto) EH).
  destruct (monotone_run n f J D u c xs x0 G (fun _ => JA x0) SP mu
    (fun x i j _ => MU0 i j) U HU tol Pt maxit x0 W0)
    as (k & y & ER & WY & Q); cbv beta in *.
  rewrite (kept_newton_run U (fun x => vabs (U x)) H (Fin tol) (JA x0) EH) in ER.
  destruct (kept_run _ _ _ _ _ _) as [k' y'] eqn:EK; injection ER as -> ->.
  destruct SOL as (rf' & s' & SOL & SA & SI).
  destruct Q as (Q1 & Q2 & Q3 & Q4).
  apply (pack_descent n f J D u c xs x0 G Z mu Pmu _ rf' s' k y U); [exact (HU _ (PD _ WY))|apply SA|assumption..].
Qed.
Print Assumptions C95_stationary.

(** ** Finite differences
    With positive perturbations, the differences of convex residuals are between
    the slopes at the point and those at the perturbed point. *)
Definition forward_steps (n : nat) (its : list (iterative XR)) (D : vec R -> Prop) (E : vec R -> Prop)
  (step : vec R -> vec R) : Prop :=
  forall x, E x -> compute_perturbations its (lift x) = Ret (lift (step x)) /\ length (step x) = n /\
  forall j, (j < n)%nat -> 0 < vent (step x) j /\ D (shift x j (vent (step x) j)).

Lemma one_column n A x j d i : length x = n -> (j < n)%nat ->
  app n A (vsub_raw (shift x j d) x) i = ment A i j * d /\ app n A (vsub_raw x (shift x j d)) i = - (ment A i j * d).
Proof.
  intros Lx Hj; assert (Ls : length (shift x j d) = n) by (rewrite shift_length; exact Lx).
  unfold app; split; (rewrite (rsum_single n j) by
    (try exact Hj; intros k Hk N; rewrite (sub_vent n) by assumption; rewrite shift_vent by lia;
     apply Nat.eqb_neq in N; rewrite ?N, ?(Nat.eqb_sym j k), ?N; ring));
    rewrite (sub_vent n) by assumption; rewrite shift_vent by lia; rewrite Nat.eqb_refl; ring.
Qed.

Lemma differences_steep n f J D u c lo hi x d i j : bracketed n f J D u c lo hi -> D x -> (i < n)%nat -> (j < n)%nat ->
  0 < d -> D (shift x j d) ->
  ment (J x) i j <= (vent (f (shift x j d)) i - vent (f x) i) / d <= ment (J (shift x j d)) i j.
Proof.
  intros G Dx Hi Hj Pd Ds; destruct (br_len _ _ _ _ _ _ _ _ G x Dx) as [Lx _].
  assert (C1 := br_convex _ _ _ _ _ _ _ _ G x (shift x j d) i Dx Ds Hi).
  assert (C2 := br_convex _ _ _ _ _ _ _ _ G (shift x j d) x i Ds Dx Hi).
  rewrite (proj1 (one_column n _ x j d i Lx Hj)) in C1; rewrite (proj2 (one_column n _ x j d i Lx Hj)) in C2.
  split; (apply Rmult_le_reg_r with d; [exact Pd|]); unfold Rdiv; rewrite Rmult_assoc, Rinv_l by lra; lra.
Qed.

Theorem C95_finite_differences : forall n func (f : vec R -> vec R) (J : vec R -> mat R) (D : vec R -> Prop) u c lo x0 mu
  its step,
  (forall x, D x -> func (lift x) = lift (f x)) -> 0 <= mu ->
  (forall x i j, D x -> (i < n)%nat -> (j < n)%nat -> ment (J x) i j <= mu) ->
  bracketed n f J D u c lo x0 -> Forall unlimited its -> length its = n ->
  forward_steps n its D (fun x => length x = n /\ below n lo x /\ below n x x0) step ->
  exists xs, D xs /\ below n lo xs /\ sole_root n f D xs /\
  forall tol maxit method rf, 0 <= tol ->
  method = NewtonRaphson \/ method = QuasiNewton StationaryNewton /\
    (forall x i j, D x -> below n x x0 -> (i < n)%nat -> (j < n)%nat -> ment (J x) i j <= ment (J x0) i j) ->
  rootfinder_new (mkSolverParameters n (Fin tol) maxit method false) (lift x0) its (all_abs n) = Ret rf ->
  descends n f u c xs x0 mu tol 0 maxit (solve (model_from_function func) rf (user_model_new n)).
Proof.
  intros n func f J D u c lo x0 mu its step Hf Pmu MU G0 UL LI ST.
  destruct (C95_root n f J D u c lo x0 mu G0 Pmu MU) as (xs & DX & BL & BH & RX).
  exists xs; split; [exact DX|]; split; [exact BL|]; split; [exact RX|].
  assert (G := bracket_root n f J D u c lo x0 xs G0 DX BL BH RX); clear G0.
  assert (Z := proj2 (RX xs DX) eq_refl).
  intros tol maxit method rf Pt HM HN; apply new_fields in HN.
  assert (Hf' := descent_fun n f J D u c xs x0 G func Hf).
  assert (FP := adapter_problem n D func f Hf' default_jacobian_provided (default_get_jacobian um_inputs)).
  assert (WB := abs_well_behaved _ n _ _ _ _ FP).
  change (mkModel um_problem_size um_set_iteratives um_inputs (um_evaluate func) um_get_residuals
    default_jacobian_provided (default_get_jacobian um_inputs) default_get_memory default_set_memory
    show_infallible show_infallible) with (model_from_function func) in WB.
  set (M := model_from_function func) in *.
  assert (HU := descent_residuals n f J D u c xs x0 G).
  set (U := residuals_of f (fun _ => vzeros n)) in *.
  set (P := between n f xs x0).
  assert (PD : forall x, P x -> D x) by exact (between_D _ _ _ _ _ _ _ _ G).
  assert (PS : forall x, P x -> compute_perturbations its (lift x) = Ret (lift (step x)) /\ length (step x) = n /\
    forall j, (j < n)%nat -> 0 < vent (step x) j /\ D (shift x j (vent (step x) j))).
  { intros x W; apply ST; destruct (bracket_between n f lo x0 xs x BL W) as (A1 & A2 & A3 & _); auto. }
  assert (W0 := between_hi _ _ _ _ _ _ _ _ G).
  assert (FPT : forall x, P x -> fd_points n D x (step x)) by (intros x W j Hj; apply (PS x W), Hj).
  set (K := fun x => fd_matrix n U x (step x)).
  assert (FDE : forall x i j, P x -> (i < n)%nat -> (j < n)%nat ->
    ment (K x) i j = (vent (f (shift x j (vent (step x) j))) i - vent (f x) i) / vent (step x) j).
  { intros x i j W Hi Hj; destruct (PS x W) as (_ & _ & S1); destruct (S1 j Hj) as [S2 S3].
    unfold K; rewrite (fd_matrix_entry M n _ _ D _ _ U _ WB); auto; [|exact (proj1 W)].
    rewrite !HU; [reflexivity|exact (PD x W)|exact S3]. }
  assert (KB : forall x i j, P x -> (i < n)%nat -> (j < n)%nat ->
    ment (J x) i j <= ment (K x) i j <= ment (J (shift x j (vent (step x) j))) i j).
  { intros x i j W Hi Hj; destruct (PS x W) as (_ & _ & S1); destruct (S1 j Hj) as [S2 S3].
    rewrite FDE by assumption; exact (differences_steep n f J D u c xs x0 x _ i j G (PD x W) Hi Hj S2 S3). }
  assert (KM : forall x i j, P x -> (i < n)%nat -> (j < n)%nat -> ment (K x) i j <= mu).
  { intros x i j W Hi Hj; eapply Rle_trans; [apply KB; assumption|apply MU; try assumption; apply (PS x W), Hj]. }
  assert (KS : forall x, P x -> steeper n J x (K x)).
  { intros x W; split; [apply fd_matrix_is_mat|]; split; [|intros; apply KB; assumption].
    intros i j Hi Hj N; eapply Rle_trans; [apply KB; assumption|].
    apply (mm_off n u c); try assumption; apply (br_slopes _ _ _ _ _ _ _ _ G); apply (PS x W), Hj. }
  assert (SRC : forall rf1 x s, rf_iters_params rf1 = its -> P x ->
    at_point M n (adapter_good n) D f (fun _ => vzeros n) x s ->
    jacobian_source M n (all_abs n) (adapter_good n) D f (fun _ => vzeros n) U rf1 x s
      (K x) (fd_last n x (step x))).
  { intros rf1 x s E1 W _; right; exists (step x); rewrite E1.
    destruct (PS x W) as (T1 & T2 & T3).
    split; [reflexivity|]; split; [|split; reflexivity].
    split; [exact T1|]; split; [exact T2|]; split; [intros j Hj; specialize (T3 j Hj); lra|apply FPT; exact W]. }
  assert (MI : sp_max_iter (rf_parameters rf) = maxit) by (subst rf; reflexivity).
  assert (IP : rf_iters_params rf = its) by (subst rf; reflexivity).
  destruct HM as [EM|[EM MONO]].
  - assert (SOL := newton_solve M n (all_abs n) (adapter_good n) D f (fun _ => vzeros n) U
      (fun x => vabs (U x)) WB its K (fun x => fd_last n x (step x)) (Fin tol) false P SRC).
    assert (HP : forall x H, P x -> length x = n -> xltb (Fin tol) (Fin (amax (vabs (U x)))) = true ->
      lu_inverse (K x) = Some H ->
      P (newton_point U H x) /\ D (newton_point U H x) /\
      (false = true -> amax (vabs (U (newton_point U H x))) <= amax (vabs (U (fd_last n x (step x)))))).
    { intros x H W _ _ EH.
      rewrite (down_point _ _ _ _ _ _ _ _ G U HU x H W).
      destruct (step_down _ _ _ _ _ _ _ _ G x (K x) H W (KS x W) EH) as (W1 & _ & _).
      split; [exact W1|]; split; [exact (PD _ W1)|discriminate]. }
    specialize (SOL HP rf (user_model_new n) x0).
    assert (NC : newton_config n (all_abs n) rf) by (subst rf method; repeat split; assumption).
    rewrite MI in SOL.
    specialize (SOL NC IP ltac:(subst rf; reflexivity)
      ltac:(subst rf; reflexivity) ltac:(subst rf; reflexivity) ltac:(subst rf; reflexivity)
      ltac:(subst rf; reflexivity) (br_hi _ _ _ _ _ _ _ _ G) W0 (PD _ W0) (fresh_good n)).
    destruct (monotone_run n f J D u c xs x0 G K KS mu KM U HU tol Pt maxit x0 W0)
      as (k & y & ER & WY & Q); cbv beta in *.
    rewrite ER in SOL; destruct SOL as (rf' & s' & _ & SOL & SA & SI).
    destruct Q as (Q1 & Q2 & Q3 & Q4).
    apply (pack_descent n f J D u c xs x0 G Z mu Pmu _ rf' s' k y U); [exact (HU _ (PD _ WY))|apply SA|assumption..].
  - assert (SP : forall x, P x -> steeper n J x (K x0)).
    { intros x W; destruct (KS x0 W0) as (A1 & A2 & A3); split; [exact A1|]; split; [exact A2|].
      intros i j Hi Hj; eapply Rle_trans; [apply MONO; [exact (PD x W)|apply W|assumption..]|apply A3; assumption]. }
    destruct (m_matrix_inverts n u c (br_pos _ _ _ _ _ _ _ _ G) (proj2 (br_dir _ _ _ _ _ _ _ _ G)) (K x0)
      (steeper_m _ _ _ _ _ _ _ _ G x0 (K x0) (PD _ W0) (SP _ W0))) as (H & EH & SH & _).
    assert (HP : forall x, P x -> length x = n -> xltb (Fin tol) (Fin (amax (vabs (U x)))) = true ->
      P (newton_point U H x) /\ D (newton_point U H x)).
    { intros x W _ _; rewrite (down_point _ _ _ _ _ _ _ _ G U HU x H W).
      destruct (step_down _ _ _ _ _ _ _ _ G x (K x0) H W (SP x W) EH) as (W1 & _ & _).
      split; [exact W1|exact (PD _ W1)]. }
    assert (SOL := stationary_solve_damped M n (all_abs n) (adapter_good n) D f (fun _ => vzeros n) U
      (fun x => vabs (U x)) WB H SH (Fin tol) P HP rf (user_model_new n) x0 (K x0) (fd_last n x0 (step x0))).
    assert (NC : plain n (all_abs n) (QuasiNewton StationaryNewton) rf)
      by (subst rf method; repeat split; assumption).
    rewrite MI in SOL.
    assert (ND : sp_damping (rf_parameters rf) = false) by (subst rf; reflexivity).
    specialize (SOL NC (or_introl ND) (fun _ => or_introl ND) ltac:(subst rf; reflexivity)
      ltac:(subst rf; reflexivity) ltac:(subst rf; reflexivity) ltac:(subst rf; reflexivity)
      ltac:(subst rf; reflexivity) (br_hi _ _ _ _ _ _ _ _ G) W0 (PD _ W0) (fresh_good n)
      (fun s1 => SRC rf x0 s1 IP W0) EH).
    destruct (monotone_run n f J D u c xs x0 G (fun _ => K x0) SP mu
      (fun x i j _ => KM x0 i j W0) U HU tol Pt maxit x0 W0)
      as (k & y & ER & WY & Q); cbv beta in *.
    rewrite (kept_newton_run U (fun x => vabs (U x)) H (Fin tol) (K x0) EH) in ER.
    destruct (kept_run _ _ _ _ _ _) as [k' y'] eqn:EK; injection ER as -> ->.
    destruct SOL as (rf' & s' & SOL & SA & SI).
    destruct Q as (Q1 & Q2 & Q3 & Q4).
    apply (pack_descent n f J D u c xs x0 G Z mu Pmu _ rf' s' k y U); [exact (HU _ (PD _ WY))|apply SA|assumption..].
Qed.
Print Assumptions C95_finite_differences.

(** ** A case
    Two coupled equations, 2 a - b + a^2 = 2 and 2 b - a + b^2 = 2, between 0 and 3:
    the root is (1, 1), and every run from (2, 2), where the residuals are 4, goes
    down to it within 0.001 in 16001 iterations at most (what the theorem promises;
    a handful is enough); so does Newton-Raphson from (0, 0). *)
Definition coupled {F} `{Num F} (x : vec F) : vec F :=
  match x with
  | [a; b] => [nsub (nadd (nsub (nmul (nofZ 2) a) b) (nmul a a)) (nofZ 2);
               nsub (nadd (nsub (nmul (nofZ 2) b) a) (nmul b b)) (nofZ 2)]
  | _ => []
  end.
Definition coupled_jac {F} `{Num F} (x : vec F) : mat F :=
  match x with
  | [a; b] => [[nadd (nofZ 2) (nmul (nofZ 2) a); nofZ (-1)]; [nofZ (-1); nadd (nofZ 2) (nmul (nofZ 2) b)]]
  | _ => []
  end.
Definition box3 (x : vec R) : Prop := exists a b, x = [a; b] /\ 0 <= a <= 3 /\ 0 <= b <= 3.

Lemma coupled_mu x i j : box3 x -> (i < 2)%nat -> (j < 2)%nat -> ment (coupled_jac x) i j <= 8.
Proof.
  intros (a & b & -> & Ha & Hb) Hi Hj.
  destruct i as [|[|i]]; [| |lia]; (destruct j as [|[|j]]; [| |lia]); unfold ment, vent; cbn; lra.
Qed.
Lemma coupled_bracketed : bracketed 2 coupled coupled_jac box3 [1; 1] 1 [0; 0] [2; 2].
Proof.
  constructor.
  - lra.
  - split; [reflexivity|]; intros [|[|i]] Hi; [| |lia]; unfold vent; cbn; lra.
  - intros x (a & b & -> & _); split; reflexivity.
  - reflexivity.
  - reflexivity.
  - intros w Lw B1 B2; destruct (len2 w Lw) as (a & b & ->); exists a, b; split; [reflexivity|].
    assert (X0 := B1 O ltac:(lia)); assert (X1 := B1 1%nat ltac:(lia)).
    assert (Y0 := B2 O ltac:(lia)); assert (Y1 := B2 1%nat ltac:(lia)).
    unfold vent in *; cbn in X0, X1, Y0, Y1; lra.
  - intros x y i (a & b & -> & _) (p & q & -> & _) Hi.
    assert (0 <= (p - a) * (p - a)) by apply Rle_0_sqr; assert (0 <= (q - b) * (q - b)) by apply Rle_0_sqr.
    destruct i as [|[|i]]; [| |lia]; unfold app, ment, vent; cbn; lra.
  - intros x (a & b & -> & Ha & Hb); constructor.
    + split; [reflexivity|]; intros [|[|i]] Hi; [reflexivity|reflexivity|lia].
    + intros [|[|i]] [|[|j]] Hi Hj N; try lia; unfold ment, vent; cbn; lra.
    + intros [|[|i]] Hi; [| |lia]; unfold app, ment, vent; cbn; lra.
  - split; [exists 0, 0|exists 2, 2]; split; try reflexivity; lra.
  - intros [|[|i]] Hi; [| |lia]; unfold vent; cbn; lra.
  - intros [|[|i]] Hi; [| |lia]; unfold vent; cbn; lra.
Qed.
Lemma coupled_lift x : box3 x -> coupled (lift x) = lift (coupled x) /\ coupled_jac (lift x) = liftm (coupled_jac x).
Proof. intros (a & b & -> & _); split; reflexivity. Qed.
Lemma coupled_root xs : sole_root 2 coupled box3 xs -> xs = [1; 1].
Proof.
  intros RX; symmetry; apply RX; [exists 1, 1; split; [reflexivity|lra]|].
  intros [|[|i]] Hi; [| |lia]; unfold vent; cbn; lra.
Qed.
Lemma coupled_steeper x : box3 x -> below 2 x [2; 2] -> steeper 2 coupled_jac x (coupled_jac [2; 2]).
Proof.
  intros (a & b & -> & Ha & Hb) B; assert (B0 := B O ltac:(lia)); assert (B1 := B 1%nat ltac:(lia)).
  unfold vent in B0, B1; cbn in B0, B1.
  split; [split; [reflexivity|]; intros [|[|i]] Hi; [reflexivity|reflexivity|lia]|]; split.
  - intros [|[|i]] [|[|j]] Hi Hj N; try lia; unfold ment, vent; cbn; lra.
  - intros [|[|i]] [|[|j]] Hi Hj; try lia; unfold ment, vent; cbn; lra.
Qed.

(** What the promise says here. *)
Lemma coupled_promise {EI EU} (o : outcome (rootfinder XR * user_model XR * result unit (solver_error EI EU))) first maxit :
  16 < INR (maxit - first) * (1 / 1000) ->
  descends 2 coupled [1; 1] 1 [1; 1] [2; 2] 8 (1 / 1000) first maxit o ->
  exists rf' s' a b, o = Ret (rf', s', Ok tt) /\ um_inputs s' = [Fin a; Fin b] /\
    1 <= a <= 1 + 1 / 1000 /\ 1 <= b <= 1 + 1 / 1000.
Proof.
  intros LM (rf' & s' & y & Q1 & Q2 & Q3 & Q4 & Q5 & Q6 & Q7 & Q8 & Q9 & Q10).
  assert (HO : o = Ret (rf', s', Ok tt)) by (apply Q10; unfold total, vent; cbn; lra).
  destruct Q9 as [[_ FY]|[F _]]; [|rewrite F in HO; discriminate].
  destruct (len2 y Q2) as (a & b & ->); exists rf', s', a, b; split; [exact HO|]; split; [exact Q1|].
  assert (A : amax (coupled [a; b]) <= 1 / 1000).
  { apply amax_le; [lra|]; intros i Hi; change (length (coupled [a; b])) with 2%nat in Hi.
    specialize (FY i Hi); specialize (Q5 i Hi); rewrite Rabs_right; lra. }
  assert (X0 := Q3 O ltac:(lia)); assert (X1 := Q3 1%nat ltac:(lia)).
  assert (Y0 := Q6 O ltac:(lia)); assert (Y1 := Q6 1%nat ltac:(lia)).
  set (m := amax (coupled [a; b])) in *; assert (E : m / 1 * 1 = m) by field; clearbody m.
  unfold vent in X0, X1, Y0, Y1; cbn [nth] in X0, X1, Y0, Y1; rewrite E in Y0, Y1; lra.
Qed.

Example C95_case : forall maxit rf, 16 < INR maxit * (1 / 1000) ->
  rootfinder_new (mkSolverParameters 2 (Fin (1 / 1000)) maxit NewtonRaphson false) (lift [2; 2])
    (jac_iteratives 2) (all_abs 2) = Ret rf ->
  exists rf' s' a b,
    solve (model_from_function_and_jacobian coupled coupled_jac) rf (user_model_new 2) = Ret (rf', s', Ok tt) /\
    um_inputs s' = [Fin a; Fin b] /\ 1 <= a <= 1 + 1 / 1000 /\ 1 <= b <= 1 + 1 / 1000.
Proof.
  intros maxit rf LM HN; apply (coupled_promise _ O maxit); [rewrite Nat.sub_0_r; exact LM|].
  destruct (C95_newton 2 coupled coupled_jac coupled coupled_jac coupled_jac box3 [1; 1] 1 [0; 0] [2; 2] 8)
    as (xs & DX & BL & RX & ALL).
  - intros x Dx; apply coupled_lift, Dx.
  - intros x Dx; split; [apply coupled_lift, Dx|]; split;
      [exact (steeper_self _ _ _ _ _ _ _ _ coupled_bracketed x Dx)|intros; apply coupled_mu; assumption].
  - lra.
  - exact coupled_bracketed.
  - rewrite (coupled_root xs RX) in ALL; apply (ALL (1 / 1000) maxit rf ltac:(lra) HN).
Qed.

Example C95_any_guess_case : forall maxit rf, 16 < INR (maxit - 1) * (1 / 1000) -> (1 <= maxit)%nat ->
  rootfinder_new (mkSolverParameters 2 (Fin (1 / 1000)) maxit NewtonRaphson false) (lift [0; 0])
    (jac_iteratives 2) (all_abs 2) = Ret rf ->
  exists rf' s' a b,
    solve (model_from_function_and_jacobian coupled coupled_jac) rf (user_model_new 2) = Ret (rf', s', Ok tt) /\
    um_inputs s' = [Fin a; Fin b] /\ 1 <= a <= 1 + 1 / 1000 /\ 1 <= b <= 1 + 1 / 1000.
Proof.
  intros maxit rf LM L1 HN; apply (coupled_promise _ 1 maxit); [exact LM|].
  destruct (C95_any_guess 2 coupled coupled_jac coupled coupled_jac box3 [1; 1] 1 [0; 0] [0; 0] [2; 2] 8)
    as (xs & DX & BL & RX & ALL).
  - intros x Dx; apply coupled_lift, Dx.
  - intros x Dx; split; [apply coupled_lift, Dx|intros; apply coupled_mu; assumption].
  - lra.
  - exact coupled_bracketed.
  - exists 0, 0; split; [reflexivity|lra].
  - intros [|[|i]] Hi; [| |lia]; unfold app, ment, vent; cbn; lra.
  - rewrite (coupled_root xs RX) in ALL.
    destruct (ALL (1 / 1000) maxit rf ltac:(lra) L1 HN) as [[T _]|[_ Q]]; [exfalso|exact Q].
    assert (X := amax_bound 2 (coupled [0; 0]) 0 eq_refl ltac:(lia)).
    change (vent (coupled [0; 0]) 0) with (2 * 0 - 0 + 0 * 0 - 2) in X; clear - T X.
    set (m := amax (coupled [0; 0])) in *; clearbody m; revert X; unfold Rabs; destruct Rcase_abs; lra.
Qed.

Example C95_stationary_case : forall maxit rf, 16 < INR maxit * (1 / 1000) ->
  rootfinder_new (mkSolverParameters 2 (Fin (1 / 1000)) maxit (QuasiNewton StationaryNewton) false) (lift [2; 2])
    (jac_iteratives 2) (all_abs 2) = Ret rf ->
  exists rf' s' a b,
    solve (model_from_function_and_jacobian coupled coupled_jac) rf (user_model_new 2) = Ret (rf', s', Ok tt) /\
    um_inputs s' = [Fin a; Fin b] /\ 1 <= a <= 1 + 1 / 1000 /\ 1 <= b <= 1 + 1 / 1000.
Proof.
  intros maxit rf LM HN; apply (coupled_promise _ O maxit); [rewrite Nat.sub_0_r; exact LM|].
  assert (D2 : box3 [2; 2]) by (exists 2, 2; split; [reflexivity|lra]).
  destruct (C95_stationary 2 coupled coupled_jac coupled coupled_jac coupled_jac box3 [1; 1] 1 [0; 0] [2; 2] 8)
    as (xs & DX & BL & RX & ALL).
  - intros x Dx; apply coupled_lift, Dx.
  - intros x Dx; split; [apply coupled_lift, Dx|apply (br_slopes _ _ _ _ _ _ _ _ coupled_bracketed x Dx)].
  - exact coupled_steeper.
  - intros; apply coupled_mu; assumption.
  - lra.
  - exact coupled_mu.
  - exact coupled_bracketed.
  - rewrite (coupled_root xs RX) in ALL; apply (ALL (1 / 1000) maxit rf ltac:(lra) HN).
Qed.

Lemma coupled_forward :
  forward_steps 2 (fd_iteratives 2) box3 (fun x => length x = 2%nat /\ below 2 [0; 0] x /\ below 2 x [2; 2]) (map default_step).
Proof.
  intros x (Lx & B1 & B2); destruct (len2 x Lx) as (a & b & ->).
  split; [apply (default_perturbations [a; b])|]; split; [reflexivity|].
  assert (X0 := B1 O ltac:(lia)); assert (X1 := B1 1%nat ltac:(lia)).
  assert (Y0 := B2 O ltac:(lia)); assert (Y1 := B2 1%nat ltac:(lia)).
  unfold vent in *; cbn [nth] in *.
  assert (S : forall z, 0 <= z <= 2 -> 0 < default_step z <= 1).
  { intros z Hz; unfold default_step; rewrite Rabs_right by lra; destruct (Rltb _ _) eqn:T; [apply Rltb_true in T|]; lra. }
  assert (SA := S a ltac:(lra)); assert (SB := S b ltac:(lra)).
  intros [|[|j]] Hj; [| |lia]; cbv [vent map nth PropsFD.shift firstn skipn List.app]; split; try lra.
  - exists (a + default_step a), b; split; [reflexivity|lra].
  - exists a, (b + default_step b); split; [reflexivity|lra].
Qed.

Example C95_finite_differences_case : forall maxit method rf, 16 < INR maxit * (1 / 1000) ->
  method = NewtonRaphson \/ method = QuasiNewton StationaryNewton ->
  rootfinder_new (mkSolverParameters 2 (Fin (1 / 1000)) maxit method false) (lift [2; 2])
    (fd_iteratives 2) (all_abs 2) = Ret rf ->
  exists rf' s' a b,
    solve (model_from_function coupled) rf (user_model_new 2) = Ret (rf', s', Ok tt) /\
    um_inputs s' = [Fin a; Fin b] /\ 1 <= a <= 1 + 1 / 1000 /\ 1 <= b <= 1 + 1 / 1000.
Proof.
  intros maxit method rf LM HM HN; apply (coupled_promise _ O maxit); [rewrite Nat.sub_0_r; exact LM|].
  destruct (C95_finite_differences 2 coupled coupled coupled_jac box3 [1; 1] 1 [0; 0] [2; 2] 8
    (fd_iteratives 2) (map default_step)) as (xs & DX & BL & RX & ALL).
  - intros x Dx; apply coupled_lift, Dx.
  - lra.
  - exact coupled_mu.
  - exact coupled_bracketed.
  - apply default_fd_unlimited.
  - reflexivity.
  - exact coupled_forward.
  - rewrite (coupled_root xs RX) in ALL; apply (ALL (1 / 1000) maxit method rf ltac:(lra)); [|exact HN].
    destruct HM as [HM|HM]; [left; exact HM|right; split; [exact HM|]].
    intros x i j Dx B Hi Hj; apply (coupled_steeper x Dx B); assumption.
Qed.

Example C95_case_exists : forall maxit method its x0, its = jac_iteratives 2 \/ its = fd_iteratives 2 -> exists rf,
  rootfinder_new (mkSolverParameters 2 (Fin (1 / 1000)) maxit method false) (lift [x0; x0]) its (all_abs 2) = Ret rf.
Proof. intros maxit method its x0 [-> | ->]; eexists; reflexivity. Qed.
