(** Newton's method near a root, on real vectors: how the distance to the root
    contracts. Only the reals and the vectors of RNum.v are involved here; the
    solver enters in PropsLocal.v through [newton_run]. *)
From Coq Require Import Reals Lra.
From Verif Require Import Base Num Linalg RNum LuFacts XR PropsQuasi PropsFD ExactFacts ExactRun.
Open Scope R_scope.

(** [x] lies within [r] of [c] in every coordinate. *)
Definition near (n : nat) (c : vec R) (r : R) (x : vec R) : Prop :=
  length x = n /\ forall i, (i < n)%nat -> Rabs (vent x i - vent c i) <= r.

(** [A] is invertible and its inverse has norm at most [beta]: a vector is at
    most [beta] times as large as its image. *)
Definition bounded_below (n : nat) (A : mat R) (beta : R) : Prop :=
  forall v c, length v = n -> 0 <= c -> (forall i, (i < n)%nat -> Rabs (app n A v i) <= c) ->
  forall i, (i < n)%nat -> Rabs (vent v i) <= beta * c.

(** [f] at [x] is given by its linear part [A] at [x], seen from [c], up to
    [e]. *)
Definition linear_at (n : nat) (f : vec R -> vec R) (A : mat R) (c x : vec R) (e : R) : Prop :=
  forall i, (i < n)%nat ->
  Rabs (app n A (vsub_raw x c) i - vent (f x) i) <= e.

Lemma near_le n c r r' x : r <= r' -> near n c r x -> near n c r' x.
Proof. intros Le [L N]; split; [exact L|]; intros i Hi; specialize (N i Hi); lra. Qed.

Lemma rsum_abs : forall n f, Rabs (rsum n f) <= rsum n (fun i => Rabs (f i)).
Proof.
  induction n as [|n IH]; intros f; cbn [rsum]; [rewrite Rabs_R0; lra|].
  specialize (IH (fun i => f (S i))).
  pose proof (Rabs_triang (f O) (rsum n (fun i => f (S i)))); lra.
Qed.

Lemma rsum_le : forall n f g, (forall i, (i < n)%nat -> f i <= g i) -> rsum n f <= rsum n g.
Proof.
  induction n as [|n IH]; intros f g H; cbn [rsum]; [lra|].
  pose proof (H O ltac:(lia)).
  pose proof (IH (fun i => f (S i)) (fun i => g (S i)) ltac:(intros; apply H; lia)); lra.
Qed.

Lemma rsum_const : forall n a, rsum n (fun _ => a) = INR n * a.
Proof.
  induction n as [|n IH]; intros a; [cbn [rsum INR]; lra|].
  rewrite S_INR; cbn [rsum]; rewrite IH; lra.
Qed.

Lemma rsum_bound n f b : (forall i, (i < n)%nat -> Rabs (f i) <= b) -> Rabs (rsum n f) <= INR n * b.
Proof.
  intros H; apply Rle_trans with (rsum n (fun i => Rabs (f i))); [apply rsum_abs|].
  rewrite <- rsum_const; apply rsum_le; exact H.
Qed.

Lemma bounded_below_regular n A beta : bounded_below n A beta -> ~ singular n A.
Proof.
  intros B (x & Lx & (i & Hi & Nz) & Z).
  assert (Q := B x 0 Lx ltac:(lra) ltac:(intros k Hk; rewrite Z, Rabs_R0 by exact Hk; lra) i Hi).
  apply Nz; rewrite Rmult_0_r in Q.
  destruct (Rcase_abs (vent x i)) as [N|N];
    [rewrite Rabs_left in Q by exact N|rewrite Rabs_right in Q by exact N]; lra.
Qed.

Lemma bounded_below_inverts n A beta : square n A -> bounded_below n A beta ->
  exists H, lu_inverse A = Some H /\ square n H /\ inverse_of n A H.
Proof.
  intros SA B; destruct (lu_inverse A) as [H|] eqn:EH.
  - exists H; split; [reflexivity|]; apply C60_inverse; assumption.
  - exfalso; apply (bounded_below_regular n A beta B).
    apply C60_fails_only_on_singular; assumption.
Qed.

(** The inverse has norm at most [beta] in the usual sense. *)
Lemma inverse_bounded n A H beta : 0 <= beta -> square n A -> square n H -> inverse_of n A H ->
  (forall i, (i < n)%nat -> rsum n (fun j => Rabs (ment H i j)) <= beta) ->
  bounded_below n A beta.
Proof.
  intros Pb SA SH IN RB v c Lv Pc HB i Hi.
  assert (E : vent v i = rsum n (fun k => ment H i k * app n A v k)).
  { unfold app.
    transitivity (rsum n (fun k => rsum n (fun j => ment H i k * ment A k j * vent v j))).
    2: { apply rsum_ext; intros k Hk; rewrite <- rsum_scal_l; apply rsum_ext; intros; lra. }
    rewrite rsum_swap.
    transitivity (rsum n (fun j => delta i j * vent v j)).
    - symmetry; rewrite (rsum_single n i); [unfold delta; rewrite Nat.eqb_refl; lra|exact Hi|].
      intros j Hj Nj; unfold delta; destruct (Nat.eqb_spec i j); [congruence|lra].
    - apply rsum_ext; intros j Hj; destruct (IN i j Hi Hj) as [_ <-].
      unfold prod; rewrite <- rsum_scal_r; reflexivity. }
  rewrite E; apply Rle_trans with (rsum n (fun k => Rabs (ment H i k) * c)).
  - eapply Rle_trans; [apply rsum_abs|]; apply rsum_le; intros k Hk; rewrite Rabs_mult.
    apply Rmult_le_compat_l; [apply Rabs_pos|apply HB; exact Hk].
  - rewrite rsum_scal_r; apply Rmult_le_compat_r; [exact Pc|apply RB; exact Hi].
Qed.

(** A perturbed matrix is invertible as long as the perturbation is small. *)
Lemma bounded_below_perturbed n A B beta e : 0 <= beta -> 0 <= e -> beta * (INR n * e) < 1 ->
  bounded_below n A beta ->
  (forall i j, (i < n)%nat -> (j < n)%nat -> Rabs (ment B i j - ment A i j) <= e) ->
  bounded_below n B (beta / (1 - beta * (INR n * e))).
Proof.
  intros Pb Pe Q BA CL v c Lv Pc HB.
  set (m := amax v).
  assert (Pm : 0 <= m) by apply amax_nonneg.
  assert (Vm : forall i, (i < n)%nat -> Rabs (vent v i) <= m).
  { intros i Hi; apply amax_le; [exact Pm|unfold m; lra|rewrite Lv; exact Hi]. }
  assert (AB : forall i, (i < n)%nat -> Rabs (app n A v i) <= c + INR n * e * m).
  { intros i Hi.
    replace (app n A v i) with (app n B v i - rsum n (fun j => (ment B i j - ment A i j) * vent v j)).
    - pose proof (HB i Hi).
      assert (Rabs (rsum n (fun j => (ment B i j - ment A i j) * vent v j)) <= INR n * (e * m)).
      { apply rsum_bound; intros j Hj; rewrite Rabs_mult.
        apply Rmult_le_compat; try apply Rabs_pos; [apply CL|apply Vm]; assumption. }
      unfold Rminus at 1; eapply Rle_trans; [apply Rabs_triang|]; rewrite Rabs_Ropp; lra.
    - unfold app; rewrite <- rsum_minus; apply rsum_ext; intros; lra. }
  assert (Pn : 0 <= INR n) by apply pos_INR.
  assert (K : m <= beta * (c + INR n * e * m)).
  { apply amax_le; [|rewrite Lv; intros i Hi; apply (BA v); auto].
    - apply Rmult_le_pos; [exact Pb|]; apply Rplus_le_le_0_compat; [exact Pc|].
      apply Rmult_le_pos; [apply Rmult_le_pos; assumption|exact Pm].
    - apply Rplus_le_le_0_compat; [exact Pc|].
      apply Rmult_le_pos; [apply Rmult_le_pos; assumption|exact Pm]. }
  intros i Hi; apply Rle_trans with m; [apply Vm; exact Hi|].
  assert (D : 0 < 1 - beta * (INR n * e)) by lra.
  apply Rmult_le_reg_r with (1 - beta * (INR n * e)); [exact D|].
  replace (beta / (1 - beta * (INR n * e)) * c * (1 - beta * (INR n * e))) with (beta * c)
    by (field; lra).
  lra.
Qed.

(** ** One step *)

Lemma newton_contracts n (f : vec R -> vec R) A H c x beta e :
  square n A -> square n H -> inverse_of n A H -> length c = n -> length (f x) = n -> 0 <= e ->
  length x = n -> bounded_below n A beta -> linear_at n f A c x e ->
  near n c (beta * e) (newton_point f H x).
Proof.
  intros SA SH IN Lc Lf Pe Lx BA LA; set (w := newton_point f H x).
  assert (Lw : length w = n) by (apply (newton_point_length n); assumption).
  split; [exact Lw|]; intros i Hi.
  rewrite <- (ent_sub n) by assumption.
  apply (BA (vsub_raw w c) e); [apply (len_sub n); assumption|exact Pe| |exact Hi].
  intros k Hk; specialize (LA k Hk).
  replace (app n A (vsub_raw w c) k) with (app n A (vsub_raw x c) k - vent (f x) k); [exact LA|].
  assert (E : app n A (vsub_raw w c) k = app n A (vsub_raw x c) k -
    rsum n (fun j => ment A k j * rsum n (fun l => ment H j l * vent (f x) l))).
  { unfold app; rewrite <- rsum_minus; apply rsum_ext; intros j Hj.
    rewrite !(ent_sub n) by assumption.
    unfold w; rewrite (newton_point_entry n) by assumption; lra. }
  rewrite E; f_equal.
  transitivity (rsum n (fun j => rsum n (fun l => ment A k j * ment H j l * vent (f x) l))).
  2: { apply rsum_ext; intros j Hj; rewrite <- rsum_scal_l; apply rsum_ext; intros; lra. }
  rewrite rsum_swap.
  transitivity (rsum n (fun l => delta k l * vent (f x) l)).
  - symmetry; rewrite (rsum_single n k); [unfold delta; rewrite Nat.eqb_refl; lra|exact Hk|].
    intros j Hj Nj; unfold delta; destruct (Nat.eqb_spec k j); [congruence|lra].
  - apply rsum_ext; intros l Hl; destruct (IN k l Hk Hl) as [<- _].
    unfold prod; rewrite <- rsum_scal_r; reflexivity.
Qed.

(** ** The whole run *)

Section Contract.
Context (n : nat) (f : vec R -> vec R) (J : vec R -> mat R) (xs : vec R)
  (rho beta kappa eta lam : R).

(** What is needed around the root [xs]: on the ball of radius [rho] the
    matrix used is invertible, and describes the function up to a term of second
    order and a term of first order; the residuals are at most [lam] times the
    distance to the root. *)
Record attracting : Prop := {
  at_len : length xs = n;
  at_pos : 0 <= rho /\ 0 <= beta /\ 0 <= kappa /\ 0 <= eta /\ 0 <= lam;
  at_fun : forall x, near n xs rho x -> length (f x) = n;
  at_mat : forall x, near n xs rho x -> square n (J x) /\ bounded_below n (J x) beta;
  at_linear : forall x r, near n xs rho x -> 0 <= r <= rho -> near n xs r x ->
    linear_at n f (J x) xs x ((kappa * r + eta) * r);
  at_small : forall x r, near n xs rho x -> 0 <= r -> near n xs r x ->
    forall i, (i < n)%nat -> Rabs (vent (f x) i) <= lam * r
}.

(** The bound on the distance after [k] steps. *)
Fixpoint radius (r : R) (k : nat) : R :=
  match k with
  | O => r
  | S k' => radius (beta * ((kappa * r + eta) * r)) k'
  end.

Context (HA : attracting).

Definition factor (r : R) : R := beta * (kappa * r + eta).

Lemma factor_pos r : 0 <= r -> 0 <= factor r.
Proof.
  intros Pr; destruct (at_pos HA) as (? & ? & ? & ? & ?); unfold factor.
  apply Rmult_le_pos; [assumption|]; apply Rplus_le_le_0_compat; [apply Rmult_le_pos|]; assumption.
Qed.
Lemma factor_le r r' : 0 <= r <= r' -> factor r <= factor r'.
Proof.
  intros Pr; destruct (at_pos HA) as (? & ? & ? & ? & ?); unfold factor.
  apply Rmult_le_compat_l; [assumption|].
  assert (kappa * r <= kappa * r') by (apply Rmult_le_compat_l; [assumption|apply Pr]); lra.
Qed.

Lemma radius_step r k : radius r (S k) = radius (factor r * r) k.
Proof. cbn [radius]; f_equal; unfold factor; lra. Qed.

Lemma radius_bounds : forall k r q, 0 <= r -> factor r <= q -> q <= 1 ->
  0 <= radius r k <= q ^ k * r.
Proof.
  induction k as [|k IH]; intros r q Pr Fq Q1; [cbn [radius pow]; lra|].
  rewrite radius_step.
  assert (F0 := factor_pos r Pr).
  assert (S1 : 0 <= factor r * r <= q * r).
  { split; [apply Rmult_le_pos; assumption|apply Rmult_le_compat_r; assumption]. }
  assert (S2 : q * r <= r) by (rewrite <- (Rmult_1_l r) at 2; apply Rmult_le_compat_r; assumption).
  assert (F1 : factor (factor r * r) <= q).
  { apply Rle_trans with (factor r); [apply factor_le; lra|exact Fq]. }
  destruct (IH (factor r * r) q ltac:(lra) F1 Q1) as [I1 I2]; split; [exact I1|].
  eapply Rle_trans; [exact I2|]; cbn [pow].
  replace (q * q ^ k * r) with (q ^ k * (q * r)) by lra.
  apply Rmult_le_compat_l; [apply pow_le; lra|lra].
Qed.

(** Without a first-order term the number of correct digits doubles. *)
Lemma radius_quadratic : eta = 0 -> forall k r q, 0 <= r -> factor r <= q -> q <= 1 ->
  0 <= radius r k <= q ^ (2 ^ k - 1) * r.
Proof.
  intros E0; induction k as [|k IH]; intros r q Pr Fq Q1; [change (2 ^ 0 - 1)%nat with O; cbn [radius pow]; lra|].
  rewrite radius_step.
  assert (F0 := factor_pos r Pr).
  assert (S1 : 0 <= factor r * r <= q * r).
  { split; [apply Rmult_le_pos; assumption|apply Rmult_le_compat_r; assumption]. }
  assert (F1 : factor (factor r * r) <= q * q).
  { replace (factor (factor r * r)) with (factor r * factor r).
    - apply Rmult_le_compat; assumption.
    - unfold factor; rewrite E0; lra. }
  assert (Q2 : q * q <= 1) by (rewrite <- (Rmult_1_l 1); apply Rmult_le_compat; lra).
  destruct (IH (factor r * r) (q * q) ltac:(lra) F1 Q2) as [I1 I2]; split; [exact I1|].
  eapply Rle_trans; [exact I2|].
  assert (E2 : ((2 ^ S k - 1) = S (2 * (2 ^ k - 1)))%nat).
  { cbn [Nat.pow]; pose proof (Nat.pow_nonzero 2 k ltac:(lia)); lia. }
  rewrite E2; cbn [pow]; rewrite pow_mult; cbn [pow]; rewrite Rmult_1_r.
  replace (q * (q * q) ^ (2 ^ k - 1) * r) with ((q * q) ^ (2 ^ k - 1) * (q * r)) by lra.
  apply Rmult_le_compat_l; [apply pow_le, Rmult_le_pos; lra|lra].
Qed.

Lemma contract_step x r : 0 <= r <= rho -> factor r <= 1 -> near n xs r x ->
  exists H, lu_inverse (J x) = Some H /\ near n xs (factor r * r) (newton_point f H x).
Proof.
  intros Pr Fr Nx.
  assert (Nr : near n xs rho x) by (apply near_le with r; [lra|exact Nx]).
  destruct (at_mat HA x Nr) as [SJ BJ].
  destruct (bounded_below_inverts n (J x) beta SJ BJ) as (H & EH & SH & IN).
  exists H; split; [exact EH|].
  assert (F0 := factor_pos r ltac:(lra)).
  destruct (at_pos HA) as (? & ? & ? & ? & ?).
  replace (factor r * r) with (beta * ((kappa * r + eta) * r)) by (unfold factor; lra).
  apply (newton_contracts n f (J x)); auto.
  - exact (at_len HA).
  - exact (at_fun HA x Nr).
  - apply Rmult_le_pos; [apply Rplus_le_le_0_compat; [apply Rmult_le_pos; lra|assumption]|lra].
  - exact (proj1 Nx).
  - exact (at_linear HA x r Nr Pr Nx).
Qed.

(** When the conditioning allows it, a step makes the residuals no larger. *)
Lemma residual_drops q x H : near n xs rho x -> lu_inverse (J x) = Some H ->
  factor rho <= q -> q < 1 -> lam * q * beta <= 1 - q ->
  amax (f (newton_point f H x)) <= amax (f x).
Proof.
  intros N EH FQ Q1 CD; destruct (at_pos HA) as (P1 & P2 & P3 & P4 & P5).
  set (r := amax (vsub_raw x xs)).
  assert (Lv : length (vsub_raw x xs) = n)
    by (unfold vsub_raw; rewrite map2_length; [exact (proj1 N)|rewrite (at_len HA); exact (proj1 N)]).
  assert (EV : forall i, (i < n)%nat -> vent (vsub_raw x xs) i = vent x i - vent xs i).
  { intros i Hi; apply (ent_sub n); [exact (proj1 N)|exact (at_len HA)|exact Hi]. }
  assert (R0 : 0 <= r) by apply amax_nonneg.
  assert (R1 : r <= rho).
  { unfold r; apply amax_le; [exact P1|]; rewrite Lv; intros i Hi; rewrite EV by exact Hi; apply N; exact Hi. }
  assert (Nr : near n xs r x).
  { split; [exact (proj1 N)|]; intros i Hi; rewrite <- EV by exact Hi.
    apply (amax_le (vsub_raw x xs) r R0); [unfold r; lra|rewrite Lv; exact Hi]. }
  assert (Fr : factor r <= q) by (pose proof (factor_le r rho ltac:(lra)); lra).
  assert (F0 := factor_pos r R0).
  destruct (contract_step x r ltac:(lra) ltac:(lra) Nr) as (H' & EH' & Nw).
  rewrite EH in EH'; injection EH' as <-.
  set (w := newton_point f H x) in *; set (Fx := amax (f x)).
  assert (Fx0 : 0 <= Fx) by apply amax_nonneg.
  assert (A1 : (1 - q) * r <= beta * Fx).
  { assert (K : r <= beta * (Fx + (kappa * r + eta) * r)).
    { assert (B0 : 0 <= (kappa * r + eta) * r)
        by (apply Rmult_le_pos; [apply Rplus_le_le_0_compat; [apply Rmult_le_pos|]|]; lra).
      unfold r at 1; apply amax_le; [apply Rmult_le_pos; lra|].
      rewrite Lv; intros i Hi.
      apply (proj2 (at_mat HA x N)); [exact Lv|lra| |exact Hi].
      intros k Hk; pose proof (at_linear HA x r N ltac:(lra) Nr k Hk) as LA.
      assert (Rabs (vent (f x) k) <= Fx).
      { apply (amax_le (f x) Fx Fx0); [unfold Fx; lra|rewrite (at_fun HA x N); exact Hk]. }
      replace (app n (J x) (vsub_raw x xs) k)
        with (app n (J x) (vsub_raw x xs) k - vent (f x) k + vent (f x) k) by lra.
      pose proof (Rabs_triang (app n (J x) (vsub_raw x xs) k - vent (f x) k) (vent (f x) k)); lra. }
    replace (beta * (Fx + (kappa * r + eta) * r)) with (beta * Fx + factor r * r) in K
      by (unfold factor; lra).
    assert (factor r * r <= q * r) by (apply Rmult_le_compat_r; lra); lra. }
  assert (S1 : factor r * r <= q * r) by (apply Rmult_le_compat_r; lra).
  assert (S2 : q * r <= r) by (rewrite <- (Rmult_1_l r) at 2; apply Rmult_le_compat_r; lra).
  assert (S0 : 0 <= factor r * r) by (apply Rmult_le_pos; lra).
  assert (Nw' : near n xs rho w) by (eapply near_le; [|exact Nw]; lra).
  assert (A2 : amax (f w) <= lam * (factor r * r)).
  { apply amax_le; [apply Rmult_le_pos; lra|]; rewrite (at_fun HA w Nw'); intros i Hi.
    exact (at_small HA w _ Nw' S0 Nw i Hi). }
  assert (A3 : lam * (factor r * r) <= lam * (q * r)) by (apply Rmult_le_compat_l; lra).
  destruct (Rle_lt_or_eq_dec 0 beta P2) as [Pb|Zb].
  - assert (A4 : lam * q * beta * r <= (1 - q) * r) by (apply Rmult_le_compat_r; lra).
    assert (lam * (q * r) <= Fx); [|fold Fx; lra].
    apply Rmult_le_reg_l with beta; [exact Pb|].
    replace (beta * (lam * (q * r))) with (lam * q * beta * r) by lra; lra.
  - rewrite <- Zb, Rmult_0_l in A1.
    assert (0 = r).
    { destruct (Rle_lt_or_eq_dec 0 r R0) as [Pr|]; [|lra].
      assert (0 < (1 - q) * r) by (apply Rmult_lt_0_compat; lra); lra. }
    assert (lam * (q * r) = 0) by (replace r with 0 by auto; lra); fold Fx; lra.
Qed.

(** The run never meets a singular matrix; it stops within [K] steps when the
    bound after [K] steps is within the tolerance, at a point no further than
    the bound after the steps made. *)
Lemma contract_run (err : vec R -> R) tol :
  (forall x, near n xs rho x -> err x = amax (f x)) ->
  forall budget x r, 0 <= r <= rho -> factor r <= 1 -> near n xs r x ->
  exists k y, newton_run J f err (Fin tol) budget x = (k, y, false) /\
    near n xs (radius r k) y /\ near n xs rho y /\ (k <= budget)%nat /\
    ((k < budget)%nat -> amax (f y) <= tol) /\
    forall K, (K <= budget)%nat -> lam * radius r K <= tol -> (k <= K)%nat /\ amax (f y) <= tol.
Proof.
  intros HE; induction budget as [|budget IH]; intros x r Pr Fr Nx; cbn [newton_run].
  - assert (Nr : near n xs rho x) by (apply near_le with r; [lra|exact Nx]).
    exists O, x; split; [reflexivity|]; split; [exact Nx|]; split; [exact Nr|].
    split; [lia|]; split; [lia|].
    intros K HK BK; assert (K = O) by lia; subst K; split; [lia|]; cbn [radius] in BK.
    destruct (at_pos HA) as (? & ? & ? & ? & ?).
    assert (0 <= lam * r) by (apply Rmult_le_pos; lra).
    apply amax_le; [lra|]; rewrite (at_fun HA x Nr); intros i Hi.
    pose proof (at_small HA x r Nr ltac:(lra) Nx i Hi); lra.
  - assert (Nr : near n xs rho x) by (apply near_le with r; [lra|exact Nx]).
    rewrite (HE x Nr); cbn [xltb]; destruct (Rltb tol (amax (f x))) eqn:T.
    + destruct (contract_step x r Pr Fr Nx) as (H & EH & Nw); rewrite EH.
      assert (F0 := factor_pos r ltac:(lra)).
      assert (S1 : 0 <= factor r * r <= r).
      { split; [apply Rmult_le_pos; lra|].
        apply Rle_trans with (1 * r); [apply Rmult_le_compat_r; lra|lra]. }
      assert (F1 : factor (factor r * r) <= 1)
        by (apply Rle_trans with (factor r); [apply factor_le; lra|exact Fr]).
      destruct (IH (newton_point f H x) (factor r * r) ltac:(lra) F1 Nw)
        as (k & y & E1 & N1 & N2 & B1 & B2 & B3).
      rewrite E1; exists (S k), y; split; [reflexivity|]; rewrite radius_step.
      split; [exact N1|]; split; [exact N2|]; split; [lia|].
      split; [intros; apply B2; lia|]; intros [|K] HK BK.
      * exfalso; cbn [radius] in BK.
        destruct (at_pos HA) as (? & ? & ? & ? & ?).
        assert (0 <= lam * r) by (apply Rmult_le_pos; lra).
        apply Rltb_true in T.
        assert (amax (f x) <= lam * r); [|lra].
        apply amax_le; [lra|]; rewrite (at_fun HA x Nr); intros i Hi.
        apply (at_small HA x r Nr ltac:(lra) Nx i Hi).
      * rewrite radius_step in BK; destruct (B3 K ltac:(lia) BK); split; [lia|assumption].
    + apply Rltb_false in T; exists O, x; split; [reflexivity|]; split; [exact Nx|].
      split; [exact Nr|]; split; [lia|]; split; [intros; exact T|].
      intros; split; [lia|exact T].
Qed.
End Contract.

(** ** Functions with Lipschitz partial derivatives *)

(** [J] contains the partial derivatives of [f] at the points of [D]. *)
Definition partials (n : nat) (D : vec R -> Prop) (f : vec R -> vec R) (J : vec R -> mat R) : Prop :=
  forall x i j, D x -> length x = n -> (i < n)%nat -> (j < n)%nat ->
  derivable_pt_lim (fun t => vent (f (shift x j t)) i) 0 (ment (J x) i j).

(** The entries of [J] change by at most [ell] times the distance. *)
Definition lipschitz (n : nat) (D : vec R -> Prop) (J : vec R -> mat R) (ell : R) : Prop :=
  forall x y s i j, D x -> D y -> length x = n -> near n x s y -> (i < n)%nat -> (j < n)%nat ->
  Rabs (ment (J y) i j - ment (J x) i j) <= ell * s.

Lemma shift_shift n (x : vec R) j t h : length x = n ->
  shift (shift x j t) j h = shift x j (t + h).
Proof.
  intros Lx; apply (vec_ext _ _ n); [rewrite !shift_length; exact Lx..|].
  intros i Hi; rewrite !shift_vent by (rewrite ?shift_length, Lx; exact Hi).
  destruct (Nat.eqb i j); lra.
Qed.

Lemma shift_0 n (x : vec R) j : length x = n -> shift x j 0 = x.
Proof.
  intros Lx; apply (vec_ext _ _ n); [rewrite shift_length; exact Lx|exact Lx|].
  intros i Hi; rewrite shift_vent by (rewrite Lx; exact Hi); destruct (Nat.eqb i j); lra.
Qed.

(** Between [0] and [d], in either order. *)
Definition within (d t : R) : Prop := 0 <= t <= d \/ d <= t <= 0.

Lemma within_abs d t : within d t -> Rabs t <= Rabs d.
Proof.
  intros [W|W].
  - rewrite !Rabs_right; lra.
  - rewrite (Rabs_left1 t), (Rabs_left1 d); lra.
Qed.

(** The mean value theorem along one coordinate. *)
Lemma mean_value n D f J x i j d : partials n D f J -> length x = n -> (i < n)%nat -> (j < n)%nat ->
  (forall t, within d t -> D (shift x j t)) ->
  exists t, within d t /\
    vent (f (shift x j d)) i - vent (f x) i = ment (J (shift x j t)) i j * d.
Proof.
  intros HP Lx Hi Hj HD.
  set (g := fun t => vent (f (shift x j t)) i).
  assert (G : forall t, within d t -> derivable_pt_lim g t (ment (J (shift x j t)) i j)).
  { intros t W e Pe.
    destruct (HP (shift x j t) i j (HD t W) ltac:(rewrite shift_length; exact Lx) Hi Hj e Pe) as [del K].
    exists del; intros h Nh Bh; specialize (K h Nh Bh); cbv beta in K.
    rewrite !(shift_shift n) in K by exact Lx; rewrite Rplus_0_r, Rplus_0_l in K; exact K. }
  assert (E0 : vent (f x) i = g 0) by (unfold g; rewrite (shift_0 n) by exact Lx; reflexivity).
  rewrite E0; change (vent (f (shift x j d)) i) with (g d).
  destruct (Rtotal_order 0 d) as [P|[P|P]].
  - destruct (MVT_cor2 g (fun t => ment (J (shift x j t)) i j) 0 d P) as (t & E & B).
    { intros; apply G; left; lra. }
    exists t; split; [left; lra|]; cbv beta in E; rewrite E; lra.
  - exists 0; split; [left; lra|]; subst d; lra.
  - destruct (MVT_cor2 g (fun t => ment (J (shift x j t)) i j) d 0 P) as (t & E & B).
    { intros; apply G; right; lra. }
    exists t; split; [right; lra|]; cbv beta in E; lra.
Qed.

(** The first [k] coordinates of [c], the others of [x]. *)
Definition mixed (c x : vec R) (k : nat) : vec R := (firstn k c ++ skipn k x)%list.

Lemma mixed_length n c x k : length c = n -> length x = n -> (k <= n)%nat -> length (mixed c x k) = n.
Proof.
  intros Lc Lx Hk; unfold mixed; rewrite app_length, firstn_length, skipn_length; lia.
Qed.

Lemma mixed_vent n c x k i : length c = n -> length x = n -> (k <= n)%nat -> (i < n)%nat ->
  vent (mixed c x k) i = if (i <? k)%nat then vent c i else vent x i.
Proof.
  intros Lc Lx Hk Hi; unfold mixed, vent.
  destruct (Nat.ltb_spec i k) as [B|B].
  - rewrite app_nth1 by (rewrite firstn_length; lia).
    clear - B Lc Hk; revert c k n Lc Hk B.
    induction i as [|i IH]; intros [|a c] [|k] n Lc Hk B; cbn [firstn nth]; try lia; try reflexivity.
    apply (IH c k (n - 1)%nat); cbn in Lc; lia.
  - rewrite app_nth2 by (rewrite firstn_length; lia).
    rewrite firstn_length, Nat.min_l by lia.
    clear - B; revert x i B; induction k as [|k IH]; intros x i B; cbn [skipn].
    + f_equal; lia.
    + destruct x as [|a x]; [destruct (i - S k)%nat, i; reflexivity|].
      destruct i as [|i]; [lia|]; cbn [nth Nat.sub]; apply IH; lia.
Qed.

Lemma mixed_step n c x k : length c = n -> length x = n -> (k < n)%nat ->
  shift (mixed c x k) k (vent c k - vent x k) = mixed c x (S k).
Proof.
  intros Lc Lx Hk; apply (vec_ext _ _ n).
  - rewrite shift_length; apply mixed_length; try assumption; lia.
  - apply mixed_length; assumption.
  - intros i Hi; rewrite shift_vent by (rewrite (mixed_length n); try assumption; lia).
    rewrite !(mixed_vent n) by (try assumption; lia).
    destruct (Nat.eqb_spec i k) as [->|N].
    + rewrite (proj2 (Nat.ltb_ge k k)), (proj2 (Nat.ltb_lt k (S k))) by lia; lra.
    + destruct (Nat.ltb_spec i k), (Nat.ltb_spec i (S k)); try lia; lra.
Qed.

(** The points met on the way from [x] to [c], one coordinate after the other,
    are as near to both as these are to each other. *)
Lemma path_near n c x k t r : length c = n -> (k < n)%nat -> near n c r x ->
  within (vent c k - vent x k) t ->
  near n c r (shift (mixed c x k) k t) /\ near n x r (shift (mixed c x k) k t).
Proof.
  intros Lc Hk [Lx N] W.
  assert (Lm : length (mixed c x k) = n) by (apply mixed_length; try assumption; lia).
  split; (split; [rewrite shift_length; exact Lm|]); intros i Hi; specialize (N i Hi);
    rewrite shift_vent by (rewrite Lm; exact Hi);
    rewrite (mixed_vent n) by (try assumption; lia);
    destruct (Nat.eqb_spec i k) as [->|Ne].
  - rewrite (proj2 (Nat.ltb_ge k k)) by lia.
    revert N; unfold Rabs; destruct W; repeat destruct Rcase_abs; lra.
  - destruct (Nat.ltb_spec i k); [|rewrite Rplus_0_r; exact N].
    rewrite Rplus_0_r; unfold Rminus; rewrite Rplus_opp_r, Rabs_R0; revert N.
    unfold Rabs; destruct Rcase_abs; lra.
  - rewrite (proj2 (Nat.ltb_ge k k)) by lia.
    revert N; unfold Rabs; destruct W; repeat destruct Rcase_abs; lra.
  - destruct (Nat.ltb_spec i k); revert N; unfold Rabs; repeat destruct Rcase_abs; lra.
Qed.

Lemma rsum_telescope : forall n (g : nat -> R), rsum n (fun k => g (S k) - g k) = g n - g O.
Proof.
  induction n as [|n IH]; intros g; cbn [rsum]; [lra|].
  rewrite (IH (fun k => g (S k))); lra.
Qed.

(** From partial derivatives to the linear description: a matrix within [e] of
    the derivatives at every point on the way describes [f] up to [n e r]. *)
Lemma linear_from_partials n D f J A c x r e : partials n D f J -> length c = n ->
  near n c r x -> (forall y, near n c r y -> D y) ->
  (forall i, (i < n)%nat -> vent (f c) i = 0) ->
  (forall y i j, near n c r y -> near n x r y -> (i < n)%nat -> (j < n)%nat ->
     Rabs (ment A i j - ment (J y) i j) <= e) ->
  linear_at n f A c x (INR n * e * r).
Proof.
  intros HP Lc NX HD Z CL i Hi; assert (NX' := NX); destruct NX' as [Lx N].
  assert (ST : forall k, (k < n)%nat -> exists t, within (vent c k - vent x k) t /\
    vent (f (mixed c x (S k))) i - vent (f (mixed c x k)) i
    = ment (J (shift (mixed c x k) k t)) i k * (vent c k - vent x k)).
  { intros k Hk; rewrite <- (mixed_step n) by assumption.
    apply (mean_value n D f J); try assumption.
    - apply mixed_length; try assumption; lia.
    - intros t W; apply HD; apply (path_near n c x k t r); assumption. }
  assert (T := rsum_telescope n (fun k => vent (f (mixed c x k)) i)); cbv beta in T.
  assert (M0 : mixed c x 0 = x) by reflexivity.
  assert (Mn : mixed c x n = c).
  { unfold mixed; rewrite firstn_all2, skipn_all2, app_nil_r by lia; reflexivity. }
  rewrite M0, Mn, Z in T by exact Hi.
  replace (app n A (vsub_raw x c) i - vent (f x) i)
    with (rsum n (fun k => ment A i k * (vent x k - vent c k) +
       (vent (f (mixed c x (S k))) i - vent (f (mixed c x k)) i))).
  - rewrite Rmult_assoc; apply rsum_bound; intros k Hk.
    destruct (ST k Hk) as (t & W & ->).
    destruct (path_near n c x k t r Lc Hk NX W) as [N1 N2].
    replace (ment A i k * (vent x k - vent c k) +
      ment (J (shift (mixed c x k) k t)) i k * (vent c k - vent x k))
      with ((ment A i k - ment (J (shift (mixed c x k) k t)) i k) * (vent x k - vent c k)) by lra.
    rewrite Rabs_mult; apply Rmult_le_compat; try apply Rabs_pos; [|apply N; exact Hk].
    apply CL; assumption.
  - rewrite rsum_plus, T; unfold app.
    rewrite (rsum_ext n (fun k => ment A i k * vent (vsub_raw x c) k)
      (fun k => ment A i k * (vent x k - vent c k))); [lra|].
    intros k Hk; rewrite (ent_sub n) by assumption; reflexivity.
Qed.

Lemma near_refl n c : length c = n -> near n c 0 c.
Proof. intros Lc; split; [exact Lc|]; intros i Hi; unfold Rminus; rewrite Rplus_opp_r, Rabs_R0; lra. Qed.
Lemma near_sym n c r x : length c = n -> near n c r x -> near n x r c.
Proof. intros Lc [Lx N]; split; [exact Lc|]; intros i Hi; rewrite Rabs_minus_sym; apply N; exact Hi. Qed.
Lemma near_trans n a b r s x : near n a r b -> near n b s x -> near n a (r + s) x.
Proof.
  intros [Lb N1] [Lx N2]; split; [exact Lx|]; intros i Hi; specialize (N1 i Hi); specialize (N2 i Hi).
  replace (vent x i - vent a i) with ((vent x i - vent b i) + (vent b i - vent a i)) by lra.
  pose proof (Rabs_triang (vent x i - vent b i) (vent b i - vent a i)); lra.
Qed.
Lemma near_shift n x j d : length x = n -> near n x (Rabs d) (shift x j d).
Proof.
  intros Lx; split; [rewrite shift_length; exact Lx|]; intros i Hi.
  rewrite shift_vent by (rewrite Lx; exact Hi).
  destruct (Nat.eqb i j).
  - replace (vent x i + d - vent x i) with d by lra; lra.
  - replace (vent x i + 0 - vent x i) with 0 by lra; rewrite Rabs_R0; apply Rabs_pos.
Qed.
