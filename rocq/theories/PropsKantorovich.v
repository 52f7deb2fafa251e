(** C92: what the values and slopes at the guess alone promise about the run
    (the theorem of Newton and Kantorovich). *)
From Coq Require Import Reals Lra.
From Verif Require Import Base Num Linalg Residuals Iteratives UserModel Jacobian Solver
  RNum LuFacts XR PropsQuasi PropsFD ExactFacts ExactRun PropsExact Util1d Props1d LocalFacts
  QuasiRun DampedRun TestCases PropsLocal PropsHalving.
Open Scope R_scope.

Lemma newton_equation n (f : vec R -> vec R) A H x k :
  square n A -> square n H -> inverse_of n A H -> length x = n -> length (f x) = n -> (k < n)%nat ->
  app n A (vsub_raw (newton_point f H x) x) k = - vent (f x) k.
Proof.
  intros SA SH IN Lx Lf Hk; set (w := newton_point f H x).
  assert (Lw : length w = n) by (apply (newton_point_length n); assumption).
  assert (E : app n A (vsub_raw w x) k =
    - rsum n (fun j => ment A k j * rsum n (fun l => ment H j l * vent (f x) l))).
  { rewrite <- (Rminus_0_l (rsum n _)).
    replace 0 with (rsum n (fun _ => 0)) at 1 by (rewrite rsum_const; lra).
    unfold app; rewrite <- rsum_minus; apply rsum_ext; intros j Hj.
    rewrite (ent_sub n) by assumption.
    unfold w; rewrite (newton_point_entry n) by assumption; lra. }
  rewrite E; f_equal.
  transitivity (rsum n (fun j => rsum n (fun l => ment A k j * ment H j l * vent (f x) l))).
  { apply rsum_ext; intros j Hj; rewrite <- rsum_scal_l; apply rsum_ext; intros; lra. }
  rewrite rsum_swap.
  transitivity (rsum n (fun l => delta k l * vent (f x) l)).
  - apply rsum_ext; intros l Hl; destruct (IN k l Hk Hl) as [<- _].
    unfold prod; rewrite <- rsum_scal_r; reflexivity.
  - rewrite (rsum_single n k); [unfold delta; rewrite Nat.eqb_refl; lra|exact Hk|].
    intros j Hj Nj; unfold delta; destruct (Nat.eqb_spec k j); [congruence|lra].
Qed.

Lemma bounded_below_le n A b b' : b <= b' -> bounded_below n A b -> bounded_below n A b'.
Proof.
  intros L B v c Lv Pc Q i Hi; apply Rle_trans with (b * c); [apply (B v c); assumption|].
  apply Rmult_le_compat_r; assumption.
Qed.

(** How far the function is from its tangent. *)
Definition less (n : nat) (f : vec R -> vec R) (c : vec R) (v : vec R) : vec R :=
  map (fun i => vent (f v) i - vent c i) (seq 0 n).

Lemma less_entry n f c v i : (i < n)%nat -> vent (less n f c v) i = vent (f v) i - vent c i.
Proof.
  intros Hi; unfold less; set (g := fun i => vent (f v) i - vent c i).
  unfold vent at 1; rewrite (nth_indep _ _ (g O)) by (rewrite map_length, seq_length; exact Hi).
  rewrite (map_nth g), seq_nth by exact Hi; reflexivity.
Qed.

Lemma less_partials n D f J c : partials n D f J -> partials n D (less n f c) J.
Proof.
  intros HP v i j Dv Lv Hi Hj eps Pe.
  destruct (HP v i j Dv Lv Hi Hj eps Pe) as [d Hd]; exists d; intros h Nh Lh.
  specialize (Hd h Nh Lh); rewrite !less_entry by exact Hi.
  replace (vent (f (shift v j (0 + h))) i - vent c i - (vent (f (shift v j 0)) i - vent c i))
    with (vent (f (shift v j (0 + h))) i - vent (f (shift v j 0)) i) by lra.
  exact Hd.
Qed.

Lemma tangent_error n D f J ell x y r : partials n D f J -> lipschitz n D J ell ->
  (forall v, near n x r v -> D v) -> 0 <= r -> length x = n -> near n x r y ->
  forall i, (i < n)%nat ->
  Rabs (vent (f y) i - vent (f x) i - app n (J x) (vsub_raw y x) i) <= INR n * ell * r * r.
Proof.
  intros HP HL HD Pr Lx NY i Hi.
  assert (NX : near n x r x) by (apply near_le with 0; [exact Pr|apply near_refl; exact Lx]).
  assert (T : linear_at n (less n f (f x)) (J x) x y (INR n * (ell * r) * r)).
  { apply (linear_from_partials n D _ J); auto.
    - apply less_partials; exact HP.
    - intros k Hk; rewrite less_entry by assumption; lra.
    - intros v k j Nv _ Hk Hj; rewrite Rabs_minus_sym.
      apply (HL x v r); try assumption; apply HD; assumption. }
  specialize (T i Hi); rewrite less_entry in T by assumption.
  rewrite Rabs_minus_sym; replace (INR n * ell * r * r) with (INR n * (ell * r) * r) by ring; exact T.
Qed.

(** ** The points of the method *)

Section Points.
Context (f : vec R -> vec R) (J : vec R -> mat R).

Definition newton_next (x : vec R) : vec R :=
  match lu_inverse (J x) with Some H => newton_point f H x | None => x end.

Fixpoint newton_seq (k : nat) (x : vec R) : vec R :=
  match k with O => x | S k' => newton_next (newton_seq k' x) end.

Lemma newton_seq_first : forall k x, newton_seq k (newton_next x) = newton_seq (S k) x.
Proof. induction k as [|k IH]; intros x; [reflexivity|]; cbn [newton_seq] in *; rewrite IH; reflexivity. Qed.
End Points.

Section Kantorovich.
Context (n : nat) (f : vec R -> vec R) (J : vec R -> mat R) (x0 : vec R) (ell b eta : R).
Notation rho := (3 / 2 * eta).
Notation D := (near n x0 rho).

(** What is asked of the guess: a bound [b] on the inverse of its matrix, a first
    step of at most [eta], and slopes that vary slowly near it. *)
Record good_guess : Prop := {
  gg_len : length x0 = n;
  gg_pos : 0 <= ell /\ 0 <= b /\ 0 <= eta;
  gg_fun : forall x, D x -> length (f x) = n;
  gg_mat : forall x, D x -> square n (J x);
  gg_partials : partials n D f J;
  gg_lipschitz : lipschitz n D J ell;
  gg_regular : bounded_below n (J x0) b;
  gg_step : exists d, length d = n /\
    (forall i, (i < n)%nat -> app n (J x0) d i = - vent (f x0) i) /\
    (forall i, (i < n)%nat -> Rabs (vent d i) <= eta);
  gg_small : b * (INR n * ell) * eta <= 1 / 4
}.
Context (G : good_guess).
Notation K := (INR n * ell).

Definition step_bound (k : nat) : R := (3 / 4) ^ k * (4 / 9) ^ (2 ^ k - 1) * eta.

Lemma K_pos : 0 <= K.
Proof. apply Rmult_le_pos; [apply pos_INR|apply (gg_pos G)]. Qed.

Lemma D_guess : D x0.
Proof.
  apply near_le with 0; [destruct (gg_pos G); lra|apply near_refl, (gg_len G)].
Qed.

(** One point of the method. *)
Record reached (x : vec R) (beta e h : R) : Prop := {
  re_near : near n x0 (rho - 3 / 2 * e) x;
  re_pos : 0 <= beta /\ 0 <= e /\ 0 <= h;
  re_regular : bounded_below n (J x) beta;
  re_step : near n x e (newton_next f J x);
  re_small : beta * K * e <= h
}.

Lemma reached_D x beta e h : reached x beta e h -> D x.
Proof. intros [N (P1 & P2 & P3) _ _ _]; apply near_le with (rho - 3 / 2 * e); [lra|exact N]. Qed.

Lemma reached_inverts x beta e h : reached x beta e h ->
  exists H, lu_inverse (J x) = Some H /\ square n H /\ inverse_of n (J x) H /\
    newton_next f J x = newton_point f H x.
Proof.
  intros RX; destruct (bounded_below_inverts n (J x) beta) as (H & EH & SH & IN).
  - apply (gg_mat G), (reached_D _ _ _ _ RX).
  - apply (re_regular _ _ _ _ RX).
  - exists H; split; [exact EH|]; split; [exact SH|]; split; [exact IN|].
    unfold newton_next; rewrite EH; reflexivity.
Qed.

(** The residuals left by a step. *)
Lemma residual_after x beta e h s : reached x beta e h -> 0 <= s <= e ->
  near n x s (newton_next f J x) ->
  forall i, (i < n)%nat -> Rabs (vent (f (newton_next f J x)) i) <= K * s * s.
Proof.
  intros RX Ps NS i Hi; assert (DX := reached_D _ _ _ _ RX).
  destruct (reached_inverts _ _ _ _ RX) as (H & EH & SH & IN & EN).
  assert (Lx : length x = n) by apply DX.
  assert (T := tangent_error n D f J ell x (newton_next f J x) s (gg_partials G) (gg_lipschitz G)).
  assert (HD : forall v, near n x s v -> D v).
  { intros v Nv; destruct RX as [N (P1 & P2 & P3) _ _ _].
    apply near_le with ((rho - 3 / 2 * e) + s); [lra|]; apply near_trans with x; assumption. }
  specialize (T HD ltac:(lra) Lx NS i Hi).
  rewrite EN in T at 2; rewrite (newton_equation n) in T; auto;
    [|apply (gg_mat G), DX|apply (gg_fun G), DX].
  replace (vent (f (newton_next f J x)) i) with
    (vent (f (newton_next f J x)) i - vent (f x) i - - vent (f x) i) by lra.
  exact T.
Qed.

Lemma next_D x beta e h : reached x beta e h -> D (newton_next f J x).
Proof.
  intros [N (P1 & P2 & P3) _ NS _].
  apply near_le with ((rho - 3 / 2 * e) + e); [lra|]; apply near_trans with x; assumption.
Qed.

(** The length of a step from the residuals there. *)
Lemma step_from_residuals x beta c : D x -> 0 <= c -> bounded_below n (J x) beta ->
  (forall i, (i < n)%nat -> Rabs (vent (f x) i) <= c) -> near n x (beta * c) (newton_next f J x).
Proof.
  intros DX Pc BB Q; assert (Lx : length x = n) by apply DX.
  destruct (bounded_below_inverts n (J x) beta) as (H & EH & SH & IN);
    [apply (gg_mat G), DX|exact BB|].
  unfold newton_next; rewrite EH.
  assert (Lw : length (newton_point f H x) = n) by (apply (newton_point_length n); assumption).
  split; [exact Lw|]; intros i Hi; rewrite <- (ent_sub n) by assumption.
  apply (BB (vsub_raw (newton_point f H x) x) c); [apply (len_sub n); assumption|exact Pc| |exact Hi].
  intros k Hk; rewrite (newton_equation n) by (first [assumption|apply (gg_mat G), DX|apply (gg_fun G), DX]).
  rewrite Rabs_Ropp; apply Q; exact Hk.
Qed.

Lemma reached_next x beta e h : h <= 1 / 4 -> reached x beta e h ->
  reached (newton_next f J x) (4 / 3 * beta) (4 / 3 * h * e) (16 / 9 * (h * h)).
Proof.
  intros H4 RX; assert (DX := reached_D _ _ _ _ RX); assert (DY := next_D _ _ _ _ RX).
  assert (RES := residual_after x beta e h e RX).
  destruct RX as [N (P1 & P2 & P3) BB NS SM].
  specialize (RES ltac:(lra) NS).
  assert (HE : 0 <= h * e <= 1 / 4 * e) by (split; [apply Rmult_le_pos|apply Rmult_le_compat_r]; assumption).
  assert (PK := K_pos).
  assert (Lx : length x = n) by apply DX.
  assert (BY : bounded_below n (J (newton_next f J x)) (4 / 3 * beta)).
  { assert (SM' : beta * (INR n * (ell * e)) = beta * K * e) by ring.
    apply bounded_below_le with (beta / (1 - beta * (INR n * (ell * e)))).
    - rewrite SM'; apply Rmult_le_reg_r with (1 - beta * K * e); [lra|].
      replace (beta / (1 - beta * K * e) * (1 - beta * K * e)) with beta by (field; lra).
      assert (0 <= beta * (1 / 4 - beta * K * e)) by (apply Rmult_le_pos; lra); nra.
    - apply (bounded_below_perturbed n (J x) _ beta (ell * e) P1);
        [apply Rmult_le_pos; [apply (gg_pos G)|exact P2]|rewrite SM'; lra|exact BB|].
      intros i j Hi Hj; apply (gg_lipschitz G x _ e); assumption. }
  assert (PE : 0 <= K * e * e) by (apply Rmult_le_pos; [apply Rmult_le_pos|]; assumption).
  constructor.
  - apply near_le with ((rho - 3 / 2 * e) + e); [lra|]; apply near_trans with x; assumption.
  - split; [lra|]; split; [lra|]; assert (0 <= h * h) by (apply Rmult_le_pos; assumption); lra.
  - exact BY.
  - apply near_le with (4 / 3 * beta * (K * e * e)).
    + replace (4 / 3 * beta * (K * e * e)) with (4 / 3 * (beta * K * e * e)) by ring.
      assert (beta * K * e * e <= h * e) by (apply Rmult_le_compat_r; assumption); lra.
    + apply step_from_residuals; assumption.
  - replace (4 / 3 * beta * K * (4 / 3 * h * e)) with (16 / 9 * (h * (beta * K * e))) by field.
    apply Rmult_le_compat_l; [lra|]; apply Rmult_le_compat_l; assumption.
Qed.

Definition slack (k : nat) : R := 9 / 16 * (4 / 9) ^ (2 ^ k).

Lemma slack_next k : slack (S k) = 16 / 9 * (slack k * slack k).
Proof.
  unfold slack; cbn [Nat.pow]; replace (2 * 2 ^ k)%nat with (2 ^ k + 2 ^ k)%nat by lia.
  rewrite pow_add; field.
Qed.

Lemma slack_quarter : forall k, 0 <= slack k <= 1 / 4.
Proof.
  induction k as [|k IH]; [unfold slack; cbn; lra|]; rewrite slack_next.
  assert (slack k * slack k <= 1 / 4 * (1 / 4)) by (apply Rmult_le_compat; lra).
  assert (0 <= slack k * slack k) by (apply Rmult_le_pos; lra); lra.
Qed.

Lemma step_bound_next k : step_bound (S k) = 4 / 3 * slack k * step_bound k.
Proof.
  unfold step_bound, slack; cbn [Nat.pow].
  replace (2 * 2 ^ k - 1)%nat with (2 ^ k + (2 ^ k - 1))%nat
    by (pose proof (Nat.pow_nonzero 2 k); lia).
  rewrite pow_add; cbn [pow]; field.
Qed.

Lemma reached_seq : forall k, reached (newton_seq f J k x0) ((4 / 3) ^ k * b) (step_bound k) (slack k).
Proof.
  destruct (gg_pos G) as (P1 & P2 & P3).
  induction k as [|k IH].
  - unfold step_bound, slack; cbn [Nat.pow Nat.sub pow newton_seq].
    replace (1 * 1 * eta) with eta by ring; replace (1 * b) with b by ring.
    replace (9 / 16 * (4 / 9 * 1)) with (1 / 4) by field.
    assert (BB := gg_regular G).
    constructor; [|lra|exact BB| |exact (gg_small G)].
    + replace (rho - rho) with 0 by ring; apply near_refl, (gg_len G).
    + destruct (gg_step G) as (d & Ld & Ed & Bd).
      assert (Lx := gg_len G); assert (DX := D_guess).
      destruct (bounded_below_inverts n (J x0) b) as (H & EH & SH & IN);
        [apply (gg_mat G), DX|exact BB|].
      unfold newton_next; rewrite EH; set (w := newton_point f H x0).
      assert (Lw : length w = n) by (apply (newton_point_length n); assumption).
      split; [exact Lw|]; intros i Hi; rewrite <- (ent_sub n) by assumption.
      replace (vent (vsub_raw w x0) i) with (vent d i); [apply Bd; exact Hi|].
      assert (Z := BB (vsub_raw d (vsub_raw w x0)) 0).
      assert (LZ : length (vsub_raw w x0) = n) by (apply (len_sub n); assumption).
      specialize (Z ltac:(apply (len_sub n); assumption) ltac:(lra)).
      assert (Q : forall k, (k < n)%nat -> Rabs (app n (J x0) (vsub_raw d (vsub_raw w x0)) k) <= 0).
      { intros k Hk; replace (app n (J x0) (vsub_raw d (vsub_raw w x0)) k)
          with (app n (J x0) d k - app n (J x0) (vsub_raw w x0) k).
        - unfold w; rewrite Ed, (newton_equation n) by (first [assumption|apply (gg_mat G), DX|apply (gg_fun G), DX]).
          rewrite Rminus_diag_eq by reflexivity; rewrite Rabs_R0; lra.
        - unfold app; rewrite <- rsum_minus; apply rsum_ext; intros j Hj.
          rewrite (ent_sub n d) by assumption; ring. }
      specialize (Z Q i Hi); rewrite (ent_sub n) in Z by assumption.
      pose proof (Rabs_pos (vent d i - vent (vsub_raw w x0) i)).
      apply Rminus_diag_uniq; destruct (Req_dec (vent d i - vent (vsub_raw w x0) i) 0) as [E|E];
        [exact E|]; apply Rabs_pos_lt in E; lra.
  - cbn [newton_seq]; apply reached_next in IH; [|apply slack_quarter].
    rewrite step_bound_next, slack_next; cbn [pow].
    replace (4 / 3 * (4 / 3) ^ k * b) with (4 / 3 * ((4 / 3) ^ k * b)) by ring; exact IH.
Qed.

(** ** The root *)

Lemma step_third k : 0 <= step_bound (S k) <= 1 / 3 * step_bound k.
Proof.
  destruct (re_pos _ _ _ _ (reached_seq k)) as (_ & P2 & _); destruct (slack_quarter k) as [Q1 Q2].
  rewrite step_bound_next; split.
  - apply Rmult_le_pos; [lra|exact P2].
  - apply Rmult_le_compat_r; [exact P2|lra].
Qed.

Lemma step_pos k : 0 <= step_bound k.
Proof. apply (re_pos _ _ _ _ (reached_seq k)). Qed.

Lemma step_bound_pow : forall k, step_bound k <= (1 / 3) ^ k * eta.
Proof.
  induction k as [|k IH]; [unfold step_bound; cbn; lra|].
  destruct (step_third k) as [_ L]; cbn [pow]; lra.
Qed.

Lemma seq_near k : forall m, near n (newton_seq f J k x0)
  (3 / 2 * (step_bound k - step_bound (k + m))) (newton_seq f J (k + m) x0).
Proof.
  induction m as [|m IH].
  - rewrite Nat.add_0_r; replace (3 / 2 * (step_bound k - step_bound k)) with 0 by ring.
    apply near_refl; apply (re_near _ _ _ _ (reached_seq k)).
  - rewrite Nat.add_succ_r; apply near_le with (3 / 2 * (step_bound k - step_bound (k + m)) + step_bound (k + m)).
    + destruct (step_third (k + m)); lra.
    + apply near_trans with (newton_seq f J (k + m) x0); [exact IH|].
      apply (re_step _ _ _ _ (reached_seq (k + m))).
Qed.

Lemma seq_close k m i : Rabs (vent (newton_seq f J (k + m) x0) i - vent (newton_seq f J k x0) i)
  <= 3 / 2 * step_bound k.
Proof.
  destruct (Nat.lt_ge_cases i n) as [Hi|Hi].
  - eapply Rle_trans; [apply (seq_near k m); exact Hi|]; pose proof (step_pos (k + m)); lra.
  - assert (Z : forall k, vent (newton_seq f J k x0) i = 0).
    { intros j; unfold vent; apply nth_overflow.
      rewrite (proj1 (re_near _ _ _ _ (reached_seq j))); exact Hi. }
    rewrite !Z; rewrite Rminus_0_r, Rabs_R0; pose proof (step_pos k); lra.
Qed.

Lemma step_bound_small eps : 0 < eps -> exists k, 3 / 2 * step_bound k < eps.
Proof.
  intros Pe; destruct (gg_pos G) as (_ & _ & P3).
  destruct (pow_reaches (1 / 3) (3 / 2 * eta) (eps / 2)) as [k Hk]; try lra.
  exists k; specialize (Hk k (Nat.le_refl _)); pose proof (step_bound_pow k); lra.
Qed.

Lemma seq_cauchy i : Cauchy_crit (fun k => vent (newton_seq f J k x0) i).
Proof.
  intros eps Pe; destruct (step_bound_small (eps / 2) ltac:(lra)) as [k Hk].
  exists k; intros p q Gp Gq; unfold R_dist.
  assert (Q : forall p, (p >= k)%nat ->
    Rabs (vent (newton_seq f J p x0) i - vent (newton_seq f J k x0) i) < eps / 2).
  { intros r Gr; replace r with (k + (r - k))%nat by lia.
    eapply Rle_lt_trans; [apply seq_close|exact Hk]. }
  assert (Q1 := Q p Gp); assert (Q2 := Q q Gq); rewrite Rabs_minus_sym in Q2.
  replace (vent (newton_seq f J p x0) i - vent (newton_seq f J q x0) i)
    with ((vent (newton_seq f J p x0) i - vent (newton_seq f J k x0) i) +
          (vent (newton_seq f J k x0) i - vent (newton_seq f J q x0) i)) by ring.
  eapply Rle_lt_trans; [apply Rabs_triang|]; lra.
Qed.

Lemma seq_limit : exists xs, forall k, near n (newton_seq f J k x0) (3 / 2 * step_bound k) xs.
Proof.
  set (lim := fun i => proj1_sig (R_complete _ (seq_cauchy i))).
  exists (map lim (seq 0 n)); intros k; split; [rewrite map_length, seq_length; reflexivity|].
  intros i Hi; unfold vent at 1.
  rewrite (nth_indep _ _ (lim O)) by (rewrite map_length, seq_length; exact Hi).
  rewrite (map_nth lim), seq_nth by exact Hi; cbn [Nat.add].
  assert (CV := proj2_sig (R_complete _ (seq_cauchy i))); fold (lim i) in CV.
  apply le_epsilon; intros eps Pe; destruct (CV eps Pe) as [N HN].
  specialize (HN (k + N)%nat ltac:(lia)); unfold R_dist in HN; rewrite Rabs_minus_sym in HN.
  replace (lim i - vent (newton_seq f J k x0) i)
    with ((vent (newton_seq f J (k + N) x0) i - vent (newton_seq f J k x0) i) +
          (lim i - vent (newton_seq f J (k + N) x0) i)) by ring.
  eapply Rle_trans; [apply Rabs_triang|]; apply Rplus_le_compat; [apply seq_close|lra].
Qed.

Lemma row_bound x i v r : D x -> (i < n)%nat -> 0 <= r -> (forall j, (j < n)%nat -> Rabs (vent v j) <= r) ->
  Rabs (app n (J x) v i) <= rsum n (fun j => Rabs (ment (J x0) i j) + ell * rho) * r.
Proof.
  intros DX Hi Pr Q; unfold app.
  eapply Rle_trans; [apply rsum_abs|]; rewrite <- rsum_scal_r; apply rsum_le; intros j Hj.
  rewrite Rabs_mult; apply Rmult_le_compat; try apply Rabs_pos; [|apply Q; exact Hj].
  assert (L := gg_lipschitz G x0 x rho i j D_guess DX (gg_len G) DX Hi Hj).
  replace (ment (J x) i j) with (ment (J x0) i j + (ment (J x) i j - ment (J x0) i j)) by ring.
  eapply Rle_trans; [apply Rabs_triang|]; lra.
Qed.

Lemma limit_is_root xs : (forall k, near n (newton_seq f J k x0) (3 / 2 * step_bound k) xs) ->
  D xs /\ forall i, (i < n)%nat -> vent (f xs) i = 0.
Proof.
  intros NX; destruct (gg_pos G) as (P1 & P2 & P3); assert (PK := K_pos).
  split.
  { specialize (NX O); cbn [newton_seq] in NX; unfold step_bound in NX; cbn [pow Nat.pow Nat.sub] in NX.
    replace (1 * 1 * eta) with eta in NX by ring; exact NX. }
  intros i Hi; set (C := rsum n (fun j => Rabs (ment (J x0) i j) + ell * rho)).
  assert (PC : 0 <= C).
  { unfold C; replace 0 with (rsum n (fun _ => 0)) by (rewrite rsum_const; ring).
    apply rsum_le; intros j Hj; pose proof (Rabs_pos (ment (J x0) i j)).
    assert (0 <= ell * rho) by (apply Rmult_le_pos; lra); lra. }
  assert (BND : forall k, Rabs (vent (f xs) i) <= (5 / 2 * C + 9 / 4 * K * eta) * step_bound k).
  { intros k; assert (RK := reached_seq k); set (x := newton_seq f J k x0) in *.
    assert (NXk := NX k); fold x in NXk; set (e := step_bound k) in *.
    assert (DX := reached_D _ _ _ _ RK); assert (Lx : length x = n) by apply DX.
    assert (Pe : 0 <= e) by apply (re_pos _ _ _ _ RK).
    assert (Ee : e <= eta).
    { unfold e; clear - G; induction k as [|k IH]; [unfold step_bound; cbn; lra|].
      destruct (step_third k); pose proof (step_pos k); lra. }
    assert (T := tangent_error n D f J ell x xs (3 / 2 * e) (gg_partials G) (gg_lipschitz G)).
    assert (HD : forall v, near n x (3 / 2 * e) v -> D v).
    { intros v Nv; apply near_le with ((rho - 3 / 2 * e) + 3 / 2 * e); [lra|].
      apply near_trans with x; [apply (re_near _ _ _ _ RK)|exact Nv]. }
    specialize (T HD ltac:(lra) Lx NXk i Hi).
    assert (T1 := row_bound x i (vsub_raw xs x) (3 / 2 * e) DX Hi ltac:(lra)).
    assert (Lxs : length xs = n) by apply NXk.
    specialize (T1 ltac:(intros j Hj; rewrite (ent_sub n) by assumption; apply NXk; exact Hj)).
    destruct (reached_inverts _ _ _ _ RK) as (H & EH & SH & IN & EN).
    assert (NS := re_step _ _ _ _ RK); rewrite EN in NS.
    assert (T2 := row_bound x i (vsub_raw (newton_point f H x) x) e DX Hi Pe).
    specialize (T2 ltac:(intros j Hj; rewrite (ent_sub n) by (try assumption; apply NS); apply NS; exact Hj)).
    rewrite (newton_equation n) in T2 by (first [assumption|apply (gg_mat G), DX|apply (gg_fun G), DX]).
    rewrite Rabs_Ropp in T2; fold C in T1, T2.
    replace (vent (f xs) i) with ((vent (f xs) i - vent (f x) i - app n (J x) (vsub_raw xs x) i) +
      (vent (f x) i + app n (J x) (vsub_raw xs x) i)) by ring.
    eapply Rle_trans; [apply Rabs_triang|].
    pose proof (Rabs_triang (vent (f x) i) (app n (J x) (vsub_raw xs x) i)).
    assert (K * e * e <= K * eta * e).
    { apply Rmult_le_compat_r; [exact Pe|]; apply Rmult_le_compat_l; assumption. }
    replace (K * (3 / 2 * e) * (3 / 2 * e)) with (9 / 4 * (K * e * e)) in T by field.
    lra. }
  destruct (Req_dec (vent (f xs) i) 0) as [E|E]; [exact E|exfalso].
  apply Rabs_pos_lt in E; set (a := Rabs (vent (f xs) i)) in *.
  assert (PA : 0 <= 5 / 2 * C + 9 / 4 * K * eta).
  { assert (0 <= K * eta) by (apply Rmult_le_pos; assumption); lra. }
  destruct (pow_reaches (1 / 3) ((5 / 2 * C + 9 / 4 * K * eta) * eta) (a / 2)) as [k Hk]; try lra.
  { apply Rmult_le_pos; assumption. }
  specialize (Hk k (Nat.le_refl _)); specialize (BND k); pose proof (step_bound_pow k) as Q.
  assert ((5 / 2 * C + 9 / 4 * K * eta) * step_bound k
    <= (5 / 2 * C + 9 / 4 * K * eta) * ((1 / 3) ^ k * eta)) by (apply Rmult_le_compat_l; assumption).
  lra.
Qed.

(** ** The run *)

Lemma residual_falls k : amax (f (newton_seq f J (S k) x0)) <= amax (f (newton_seq f J k x0)).
Proof.
  assert (RK := reached_seq k); cbn [newton_seq]; set (x := newton_seq f J k x0) in *.
  set (e := step_bound k) in *; set (beta := (4 / 3) ^ k * b) in *.
  destruct (re_pos _ _ _ _ RK) as (P1 & P2 & P3).
  assert (DX := reached_D _ _ _ _ RK); assert (PK := K_pos).
  assert (DY := next_D _ _ _ _ RK).
  assert (A0 := amax_nonneg (f x)); set (a := amax (f x)) in *.
  assert (PB : 0 <= beta * a) by (apply Rmult_le_pos; assumption).
  assert (N1 : near n x (beta * a) (newton_next f J x)).
  { apply step_from_residuals; try assumption; [apply (re_regular _ _ _ _ RK)|].
    intros i Hi; apply (proj1 (amax_le (f x) a A0)); [unfold a; lra|].
    rewrite (gg_fun G) by exact DX; exact Hi. }
  assert (N2 : near n x (Rmin e (beta * a)) (newton_next f J x)).
  { unfold Rmin; destruct (Rle_dec e (beta * a)); [apply (re_step _ _ _ _ RK)|exact N1]. }
  assert (PS : 0 <= Rmin e (beta * a)) by (apply Rmin_glb; assumption).
  assert (RES := residual_after x beta e _ _ RK (conj PS (Rmin_l _ _)) N2).
  apply amax_le; [exact A0|]; intros i Hi; rewrite (gg_fun G) in Hi by exact DY.
  eapply Rle_trans; [apply RES; exact Hi|].
  assert (B1 := Rmin_l e (beta * a)); assert (B2 := Rmin_r e (beta * a)).
  set (t := Rmin e (beta * a)) in *.
  apply Rle_trans with (K * e * (beta * a)).
  - apply Rmult_le_compat; try assumption; [apply Rmult_le_pos; assumption|].
    apply Rmult_le_compat_l; assumption.
  - replace (K * e * (beta * a)) with (beta * K * e * a) by ring.
    assert (SM := re_small _ _ _ _ RK); destruct (slack_quarter k).
    assert (beta * K * e * a <= 1 * a) by (apply Rmult_le_compat_r; [assumption|lra]); lra.
Qed.

Lemma kantorovich_run (U : vec R -> vec R) tol damping :
  (forall x, D x -> U x = f x) ->
  forall budget k, exists m,
    damped_run J U (fun x => vabs (U x)) (fun x => x) (Fin tol) damping budget (newton_seq f J k x0)
    = (m, newton_seq f J (k + m) x0, false) /\ (m <= budget)%nat /\
    (forall j, (j < m)%nat -> tol < amax (f (newton_seq f J (k + j) x0))) /\
    ((m < budget)%nat -> amax (f (newton_seq f J (k + m) x0)) <= tol).
Proof.
  intros HU; induction budget as [|budget IH]; intros k.
  - exists O; rewrite Nat.add_0_r; split; [reflexivity|]; split; [lia|]; split; intros; lia.
  - assert (DX := reached_D _ _ _ _ (reached_seq k)).
    assert (DY := reached_D _ _ _ _ (reached_seq (S k))).
    cbn [damped_run]; rewrite amax_vabs, (HU _ DX); cbn [xltb].
    destruct (Rltb tol (amax (f (newton_seq f J k x0)))) eqn:T.
    + destruct (reached_inverts _ _ _ _ (reached_seq k)) as (H & EH & SH & IN & EN); rewrite EH.
      assert (EP : newton_point U H (newton_seq f J k x0) = newton_seq f J (S k) x0).
      { cbn [newton_seq]; rewrite EN; unfold newton_point; rewrite (HU _ DX); reflexivity. }
      rewrite EP.
      assert (KP : kept_point (fun x => vabs (U x)) damping (newton_seq f J k x0) (newton_seq f J (S k) x0)
        = newton_seq f J (S k) x0).
      { unfold kept_point; rewrite !amax_vabs, (HU _ DX), (HU _ DY).
        replace (Rltb _ _) with false; [rewrite andb_false_r; reflexivity|].
        symmetry; apply Rltb_false; apply residual_falls. }
      rewrite KP; destruct (IH (S k)) as (m & ER & B & Q1 & Q2); rewrite ER.
      exists (S m); replace (k + S m)%nat with (S k + m)%nat by lia.
      split; [reflexivity|]; split; [lia|]; split.
      * intros [|j] Hj; [rewrite Nat.add_0_r; apply Rltb_true; exact T|].
        replace (k + S j)%nat with (S k + j)%nat by lia; apply Q1; lia.
      * intros Hm; apply Q2; lia.
    + exists O; rewrite Nat.add_0_r; split; [reflexivity|]; split; [lia|]; split; [intros; lia|].
      intros _; apply Rltb_false; exact T.
Qed.

Lemma residual_small k : amax (f (newton_seq f J (S k) x0)) <= K * (step_bound k * step_bound k).
Proof.
  assert (RK := reached_seq k); assert (P := step_pos k); assert (PK := K_pos).
  apply amax_le; [apply Rmult_le_pos; [|apply Rmult_le_pos]; assumption|].
  intros i Hi; rewrite (gg_fun G) in Hi by exact (reached_D _ _ _ _ (reached_seq (S k))).
  cbn [newton_seq]; rewrite <- Rmult_assoc.
  apply (residual_after _ _ _ _ _ RK (conj P (Rle_refl _)) (re_step _ _ _ _ RK)); exact Hi.
Qed.
End Kantorovich.

Theorem C92_promises_at_the_guess : forall n func jac (f : vec R -> vec R) (J : vec R -> mat R)
  x0 ell b eta,
  (forall x, near n x0 (3 / 2 * eta) x -> func (lift x) = lift (f x)) ->
  (forall x, near n x0 (3 / 2 * eta) x -> jac (lift x) = liftm (J x)) ->
  good_guess n f J x0 ell b eta ->
  exists xs, near n x0 (3 / 2 * eta) xs /\ (forall i, (i < n)%nat -> vent (f xs) i = 0) /\
  forall tol maxit damping rf,
  rootfinder_new (mkSolverParameters n (Fin tol) maxit NewtonRaphson damping) (lift x0)
    (jac_iteratives n) (all_abs n) = Ret rf ->
  let e := fun k : nat => (3 / 4) ^ k * (4 / 9) ^ (2 ^ k - 1) * eta in
  exists rf' s' y,
    um_inputs s' = lift y /\ near n xs (3 / 2 * e (rf_iter rf')) y /\
    near n x0 (3 / 2 * eta) y /\ (rf_iter rf' <= maxit)%nat /\
    (solve (model_from_function_and_jacobian func jac) rf (user_model_new n)
     = Ret (rf', s', Ok tt) /\ (forall i, (i < n)%nat -> Rabs (vent (f y) i) <= tol) \/
     solve (model_from_function_and_jacobian func jac) rf (user_model_new n)
     = Ret (rf', s', Err NonConvergenceError) /\ rf_iter rf' = maxit /\
     amax (f y) > tol) /\
    forall k, (k < maxit)%nat -> INR n * ell * (e k * e k) <= tol ->
      solve (model_from_function_and_jacobian func jac) rf (user_model_new n)
      = Ret (rf', s', Ok tt) /\ (rf_iter rf' <= S k)%nat.
Proof.
  intros n func jac f J x0 ell b eta Hf HJ G.
  destruct (seq_limit n f J x0 ell b eta G) as [xs NX].
  destruct (limit_is_root n f J x0 ell b eta G xs NX) as [DXS ROOT].
  exists xs; split; [exact DXS|]; split; [exact ROOT|].
  intros tol maxit damping rf HN; change (fun k : nat => (3 / 4) ^ k * (4 / 9) ^ (2 ^ k - 1) * eta)
    with (step_bound eta); cbv zeta; apply new_fields in HN.
  set (D := near n x0 (3 / 2 * eta)).
  assert (Hf' : forall x, D x -> length x = n -> func (lift x) = lift (f x) /\ length (f x) = n)
    by (intros x Dx _; split; [apply Hf, Dx|exact (gg_fun _ _ _ _ _ _ _ G x Dx)]).
  assert (HJ' : forall x, D x -> length x = n -> jac (lift x) = liftm (J x) /\ is_mat n (J x))
    by (intros x Dx _; split; [apply HJ, Dx|exact (gg_mat _ _ _ _ _ _ _ G x Dx)]).
  assert (FP := adapter_problem n D func f Hf' (fun _ => true) (um_get_jacobian jac)).
  assert (WB := abs_well_behaved _ n _ _ _ _ FP).
  assert (HA := adapter_analytic n D func f Hf' jac J HJ').
  set (M := model_from_function_and_jacobian func jac) in *.
  set (U := residuals_of f (fun _ => vzeros n)) in *.
  assert (HU : forall x, D x -> U x = f x)
    by (intros x N; apply residuals_of_zero; exact (gg_fun _ _ _ _ _ _ _ G x N)).
  assert (RS := reached_seq n f J x0 ell b eta G).
  set (P := fun x => exists k, x = newton_seq f J k x0).
  assert (SOL := damped_solve M n (all_abs n) (adapter_good n) D f (fun _ => vzeros n) U
    (fun x => vabs (U x)) WB (jac_iteratives n) J (fun x => x) (Fin tol) damping P).
  specialize (SOL ltac:(intros rf1 x s _ _ _; left; exists J; auto)).
  assert (HP : forall x H, P x -> length x = n -> xltb (Fin tol) (Fin (amax (vabs (U x)))) = true ->
    lu_inverse (J x) = Some H ->
    P (kept_point (fun x => vabs (U x)) damping x (newton_point U H x)) /\
    D (newton_point U H x) /\ D (midpoint x (newton_point U H x))).
  { intros x H [k ->] _ _ EH.
    assert (DX := reached_D _ _ _ _ _ _ _ _ _ _ (RS k)).
    assert (DY := reached_D _ _ _ _ _ _ _ _ _ _ (RS (S k))).
    assert (EP : newton_point U H (newton_seq f J k x0) = newton_seq f J (S k) x0).
    { cbn [newton_seq]; unfold newton_next; rewrite EH; unfold newton_point; rewrite (HU _ DX); reflexivity. }
    rewrite EP; split; [|split; [exact DY|]].
    - exists (S k); unfold kept_point; rewrite !amax_vabs, (HU _ DX), (HU _ DY).
      replace (Rltb _ _) with false; [rewrite andb_false_r; reflexivity|].
      symmetry; apply Rltb_false; apply (residual_falls n f J x0 ell b eta G).
    - unfold D; replace (3 / 2 * eta) with ((3 / 2 * eta + 3 / 2 * eta) / 2) by field.
      apply midpoint_near; assumption. }
  specialize (SOL HP rf (user_model_new n) x0).
  assert (NC : newton_config n (all_abs n) rf).
  { subst rf; repeat split; [apply default_jac_unlimited|].
    cbn [rf_iters_params]; unfold jac_iteratives, default_vec_iteratives.
    rewrite map_length, repeat_length; reflexivity. }
  assert (MI : sp_max_iter (rf_parameters rf) = maxit) by (subst rf; reflexivity).
  rewrite MI in SOL.
  specialize (SOL NC ltac:(subst rf; reflexivity) ltac:(subst rf; reflexivity)
    ltac:(subst rf; reflexivity) ltac:(subst rf; reflexivity) ltac:(subst rf; reflexivity)
    ltac:(subst rf; reflexivity) (gg_len _ _ _ _ _ _ _ G)
    ltac:(exists O; reflexivity) (D_guess _ _ _ _ _ _ _ G) (fresh_good n)).
  destruct (kantorovich_run n f J x0 ell b eta G U tol damping HU maxit O)
    as (m & ER & B & Q1 & Q2); cbn [newton_seq Nat.add] in ER, Q1, Q2.
  rewrite ER in SOL; destruct SOL as (rf' & s' & _ & SOL & SA & SI).
  assert (DY := reached_D _ _ _ _ _ _ _ _ _ _ (RS m)).
  set (y := newton_seq f J m x0) in *.
  assert (Ly : length (f y) = n) by exact (gg_fun _ _ _ _ _ _ _ G y DY).
  rewrite amax_vabs, (HU y DY) in SOL; cbn [xltb] in SOL.
  exists rf', s', y; rewrite SI.
  split; [apply SA|].
  split.
  { apply near_sym; [apply DY|]; exact (NX m). }
  split; [exact DY|]; split; [exact B|].
  assert (SMALL : amax (f y) <= tol -> forall i, (i < n)%nat -> Rabs (vent (f y) i) <= tol).
  { intros L i Hi; eapply Rle_trans; [|exact L].
    apply (proj1 (amax_le (f y) (amax (f y)) (amax_nonneg _))); [lra|rewrite Ly; exact Hi]. }
  split.
  - destruct (Rltb tol (amax (f y))) eqn:T.
    + apply Rltb_true in T; right; split; [exact SOL|]; split.
      * destruct (Nat.lt_ge_cases m maxit) as [L|L]; [specialize (Q2 L); lra|lia].
      * lra.
    + apply Rltb_false in T; left; split; [exact SOL|exact (SMALL T)].
  - intros k Hk HT.
    assert (RES := residual_small n f J x0 ell b eta G k).
    assert (Lm : (m <= S k)%nat).
    { destruct (Nat.le_gt_cases m (S k)) as [L|L]; [exact L|exfalso].
      specialize (Q1 (S k) L); lra. }
    split; [|exact Lm].
    replace (Rltb tol (amax (f y))) with false in SOL; [exact SOL|].
    symmetry; apply Rltb_false; destruct (Nat.lt_ge_cases m maxit) as [L|L]; [exact (Q2 L)|].
    assert (EM : m = S k) by lia; unfold y; rewrite EM; lra.
Qed.
Print Assumptions C92_promises_at_the_guess.

(** With a positive tolerance and enough iterations the run succeeds. *)
Theorem C92_converges : forall n func jac (f : vec R -> vec R) (J : vec R -> mat R)
  x0 ell b eta tol,
  (forall x, near n x0 (3 / 2 * eta) x -> func (lift x) = lift (f x)) ->
  (forall x, near n x0 (3 / 2 * eta) x -> jac (lift x) = liftm (J x)) ->
  good_guess n f J x0 ell b eta -> 0 < tol ->
  exists K, forall maxit damping rf, (K <= maxit)%nat ->
  rootfinder_new (mkSolverParameters n (Fin tol) maxit NewtonRaphson damping) (lift x0)
    (jac_iteratives n) (all_abs n) = Ret rf ->
  exists rf' s' y,
    solve (model_from_function_and_jacobian func jac) rf (user_model_new n)
    = Ret (rf', s', Ok tt) /\ (rf_iter rf' <= K)%nat /\ um_inputs s' = lift y /\
    near n x0 (3 / 2 * eta) y /\ forall i, (i < n)%nat -> Rabs (vent (f y) i) <= tol.
Proof.
  intros n func jac f J x0 ell b eta tol Hf HJ G Pt.
  destruct (C92_promises_at_the_guess n func jac f J x0 ell b eta Hf HJ G) as (xs & _ & _ & ALL).
  destruct (gg_pos _ _ _ _ _ _ _ G) as (P1 & P2 & P3).
  assert (PK := K_pos _ _ _ _ _ _ _ G).
  destruct (pow_reaches (1 / 3) (INR n * ell * eta * eta) tol) as [k Hk]; try lra.
  { apply Rmult_le_pos; [apply Rmult_le_pos|]; assumption. }
  specialize (Hk k (Nat.le_refl _)).
  exists (S k); intros maxit damping rf Lk HN.
  destruct (ALL tol maxit damping rf HN) as (rf' & s' & y & Q1 & Q2 & Q3 & Q4 & Q5 & Q6).
  specialize (Q6 k ltac:(lia)).
  change ((3 / 4) ^ k * (4 / 9) ^ (2 ^ k - 1) * eta) with (step_bound eta k) in Q6.
  assert (S1 := step_bound_pow _ _ _ _ _ _ _ G k); assert (S2 := step_pos _ _ _ _ _ _ _ G k).
  assert (S3 : (1 / 3) ^ k <= 1 ^ k) by (apply pow_incr; lra); rewrite pow1 in S3.
  assert (S4 : 0 <= (1 / 3) ^ k) by (apply pow_le; lra).
  assert (S5 : step_bound eta k <= eta).
  { assert (0 <= (1 - (1 / 3) ^ k) * eta) by (apply Rmult_le_pos; lra); lra. }
  assert (T : INR n * ell * (step_bound eta k * step_bound eta k) <= tol).
  { apply Rle_trans with (INR n * ell * (eta * ((1 / 3) ^ k * eta))).
    - apply Rmult_le_compat_l; [exact PK|]; apply Rmult_le_compat; assumption.
    - replace (INR n * ell * (eta * ((1 / 3) ^ k * eta))) with (INR n * ell * eta * eta * (1 / 3) ^ k) by ring.
      exact Hk. }
  destruct (Q6 T) as [SOL LI]; exists rf', s', y; repeat (split; [assumption|]).
  destruct Q5 as [[_ Q]|[Q _]]; [exact Q|rewrite SOL in Q; discriminate].
Qed.
Print Assumptions C92_converges.

(** Broyden's case 9 from (1.001, 1.002): the first step is at most 0.0021, so there
    is a root within 0.00315 of the guess, and at most three iterations lead to
    residuals of at most 10^-6, with or without damping. *)
Lemma case9_guess : good_guess 2 case9 case9_jac [1001 / 1000; 1002 / 1000] 20 (211 / 100) (21 / 10000).
Proof.
  assert (RR := case9_regular 1 ltac:(lra)).
  constructor.
  - reflexivity.
  - lra.
  - intros x [Lx _]; destruct (len2 x Lx) as (a & c & ->); reflexivity.
  - intros x [Lx _]; destruct (len2 x Lx) as (a & c & ->).
    split; [reflexivity|]; intros [|[|k]] Hk; try reflexivity; lia.
  - apply case9_partials.
  - intros x y s i j _ _ Lx [Ly N] Hi Hj.
    destruct (len2 x Lx) as (a & c & ->); destruct (len2 y Ly) as (a' & c' & ->).
    specialize (N O ltac:(lia)); unfold vent in N; cbn [nth] in N.
    assert (0 <= s) by (pose proof (Rabs_pos (a' - a)); lra).
    destruct i as [|[|i]]; [| |lia]; (destruct j as [|[|j]]; [| |lia]);
      unfold ment, vent; cbn [nth case9_jac value_of broyden1965_case9_jac index nth_error bind];
      cbn [nmul nofZ n0 Num_R].
    + replace (IZR (-20) * a' - IZR (-20) * a) with (- (20 * (a' - a))) by lra.
      rewrite Rabs_Ropp, Rabs_mult, (Rabs_right 20) by lra.
      apply Rmult_le_compat_l; [lra|exact N].
    + unfold Rminus; rewrite Rplus_opp_r, Rabs_R0; lra.
    + unfold Rminus; rewrite Rplus_opp_r, Rabs_R0; lra.
    + unfold Rminus; rewrite Rplus_opp_r, Rabs_R0; lra.
  - intros v c Lv Pc B; destruct (len2 v Lv) as (a & e & ->).
    pose proof (B O ltac:(lia)) as B0; pose proof (B 1%nat ltac:(lia)) as B1.
    unfold app, ment, vent in B0, B1; cbn in B0, B1.
    revert B0 B1; intros B0 B1 i Hi; unfold vent.
    assert (A1 : Rabs a <= c) by (revert B1; unfold Rabs; repeat destruct Rcase_abs; lra).
    destruct i as [|[|i]]; [| |lia]; cbn [nth]; [lra|].
    revert A1 B0; unfold Rabs; repeat destruct Rcase_abs; lra.
  - exists [- 1 / 1000; - 2001 / 1000000]; split; [reflexivity|]; split.
    + intros [|[|i]] Hi; [| |lia]; unfold app, ment, vent, nsq; cbn; lra.
    + intros [|[|i]] Hi; [| |lia]; unfold vent; cbn; unfold Rabs; destruct Rcase_abs; lra.
  - cbn; lra.
Qed.

Example C92_case : exists xs, near 2 [1001 / 1000; 1002 / 1000] (63 / 20000) xs /\
  case9 xs = [0; 0] /\
  forall maxit damping rf, (3 <= maxit)%nat ->
  rootfinder_new (mkSolverParameters 2 (Fin (1 / 1000000)) maxit NewtonRaphson damping)
    (lift [1001 / 1000; 1002 / 1000]) (jac_iteratives 2) (all_abs 2) = Ret rf ->
  exists rf' s' y,
    solve (model_from_function_and_jacobian case9 case9_jac) rf (user_model_new 2)
    = Ret (rf', s', Ok tt) /\ (rf_iter rf' <= 3)%nat /\ um_inputs s' = lift y /\
    near 2 xs (3 / 2 * ((3 / 4) ^ rf_iter rf' * (4 / 9) ^ (2 ^ rf_iter rf' - 1) * (21 / 10000))) y.
Proof.
  destruct (C92_promises_at_the_guess 2 case9 case9_jac case9 case9_jac
    [1001 / 1000; 1002 / 1000] 20 (211 / 100) (21 / 10000)) as (xs & N & Z & ALL).
  - intros x [Lx _]; destruct (len2 x Lx) as (a & c & ->); cbn; repeat f_equal; lra.
  - intros x [Lx _]; destruct (len2 x Lx) as (a & c & ->); reflexivity.
  - exact case9_guess.
  - exists xs; split; [apply near_le with (3 / 2 * (21 / 10000)); [lra|exact N]|].
    split.
    { destruct N as [Lx _]; destruct (len2 xs Lx) as (a & c & ->).
      pose proof (Z O ltac:(lia)) as Z0; pose proof (Z 1%nat ltac:(lia)) as Z1.
      unfold vent in Z0, Z1; cbn in Z0, Z1; cbn; repeat f_equal; assumption. }
    intros maxit damping rf LM HN.
    destruct (ALL (1 / 1000000) maxit damping rf HN) as (rf' & s' & y & Q1 & Q2 & Q3 & Q4 & Q5 & Q6).
    destruct (Q6 2%nat ltac:(lia)) as [SOL LI]; [cbn; lra|].
    exists rf', s', y; auto.
Qed.
