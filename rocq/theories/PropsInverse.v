(** C97: the inverse of a well-conditioned jacobian in floating point. *)
From Coq Require Import Reals Lra Lia ZArith List Bool.
From Flocq Require Import Core BinarySingleNaN.
From Verif Require Import Base Num F64 Linalg Residuals Iteratives UserModel Jacobian Solver
  F64Facts F64Arith LimitFacts RNum ExactFacts LocalFacts PropsNorm PropsAccuracy PropsFD PropsStep
  Samples FloatRun PropsFloat LuFloat.
Import ListNotations.
Open Scope R_scope.

(** A square matrix of finite numbers of size at most [M]. *)
Definition finite_matrix (n : nat) (A : mat f64) (M : R) : Prop :=
  squaref n A /\
  forall i j, (i < n)%nat -> (j < n)%nat -> isfin (nth j (nth i A []) n0) = true /\ Rabs (mentf A i j) <= M.

(** No vector is shortened by more than [beta]. *)
Definition well_posed (n : nat) (A : mat f64) (beta : R) : Prop :=
  forall x t, 0 <= t -> (forall i, (i < n)%nat -> Rabs (rsum n (fun l => mentf A i l * x l)) <= t) ->
  forall i, (i < n)%nat -> Rabs (x i) <= beta * t.

(** The exact inverse, of norm at most [beta]. *)
Definition exact_inverse (n : nat) (G : nat -> nat -> R) (A : mat f64) (beta : R) : Prop :=
  (forall i l, (i < n)%nat -> (l < n)%nat ->
     rsum n (fun j => G i j * mentf A j l) = if Nat.eqb l i then 1 else 0) /\
  forall i, (i < n)%nat -> rsum n (fun j => Rabs (G i j)) <= beta.

(** The roundings of the inversion. *)
Definition growth (n : nat) : R := (9 / 4) ^ n.
Definition inversion_error (n : nat) (M beta : R) : R :=
  20 * INR n * INR n * u53 * (growth n * (1 + 4 * INR n * (growth n * M * beta))).

Record conditioned (n : nat) (M beta : R) : Prop := mkConditioned {
  cd_dim : (1 <= n)%nat;
  cd_size : bpow radix2 (-300) <= M <= bpow radix2 300;
  cd_inverse : 0 < beta <= bpow radix2 300;
  cd_small : 20 * INR n * INR n * u53 * (1 + 4 * INR n * (growth n * M * beta)) <= 1
}.

Lemma identity_row n i : (i < n)%nat ->
  nth i (@identity f64 _ n) [] = map (fun j => if Nat.eqb i j then n1 else n0) (seq 0 n).
Proof.
  intros Hi; unfold identity.
  rewrite (nth_indep _ [] ((fun i => map (fun j => if Nat.eqb i j then n1 else n0) (seq 0 n)) O))
    by (rewrite map_length, seq_length; exact Hi).
  rewrite (map_nth (fun i => map (fun j => if Nat.eqb i j then n1 else n0) (seq 0 n))).
  rewrite seq_nth by exact Hi; reflexivity.
Qed.
Lemma identity_entry n i j : (i < n)%nat -> (j < n)%nat ->
  nth j (nth i (@identity f64 _ n) []) n0 = if Nat.eqb i j then n1 else n0.
Proof.
  intros Hi Hj; rewrite identity_row by exact Hi.
  rewrite (nth_indep _ n0 ((fun j => if Nat.eqb i j then n1 else n0) O)) by (rewrite map_length, seq_length; exact Hj).
  rewrite (map_nth (fun j => if Nat.eqb i j then n1 else n0)).
  rewrite seq_nth by exact Hj; reflexivity.
Qed.
Lemma identity_length {F} {NF : Num F} n : length (@identity F _ n) = n.
Proof. unfold identity; rewrite map_length, seq_length; reflexivity. Qed.

Lemma rows_length (A : mat f64) n : length A = n -> length (combine A (@identity f64 _ n)) = n.
Proof.
  intros L; transitivity (Nat.min (length A) (length (@identity f64 _ n))); [apply combine_length|].
  rewrite L, (identity_length n); apply Nat.min_id.
Qed.
Lemma rows_nth (A : mat f64) n i : length A = n ->
  nth i (combine A (@identity f64 _ n)) ([], []) = (nth i A [], nth i (@identity f64 _ n) []).
Proof. intros L; apply combine_nth; etransitivity; [exact L|]; symmetry; apply identity_length. Qed.
Lemma combine_in (A : mat f64) n rb : length A = n ->
  In rb (combine A (@identity f64 _ n)) -> exists i, (i < n)%nat /\ rb = (nth i A [], nth i (@identity f64 _ n) []).
Proof.
  intros L H; destruct (In_nth _ _ ([], []) H) as (i & Hi & E).
  exists i; split; [eapply Nat.lt_le_trans; [exact Hi|]; apply Nat.eq_le_incl, rows_length; exact L|].
  etransitivity; [symmetry; exact E|]; apply rows_nth; exact L.
Qed.
Lemma in_combine (A : mat f64) n i : length A = n -> (i < n)%nat ->
  In (nth i A [], nth i (@identity f64 _ n) []) (combine A (@identity f64 _ n)).
Proof.
  intros L Hi; rewrite <- (rows_nth A n i L); apply nth_In.
  eapply Nat.lt_le_trans; [exact Hi|]; apply Nat.eq_le_incl; symmetry; apply rows_length; exact L.
Qed.

Lemma well_posed_of_inverse n G A beta : 0 <= beta -> exact_inverse n G A beta -> well_posed n A beta.
Proof.
  intros PB (EI & NI) x t Pt HT i Hi.
  assert (E : x i = rsum n (fun j => G i j * rsum n (fun l => mentf A j l * x l))).
  { transitivity (rsum n (fun l => (if Nat.eqb l i then 1 else 0) * x l)); [symmetry; apply rsum_delta; exact Hi|].
    transitivity (rsum n (fun l => rsum n (fun j => G i j * mentf A j l) * x l)).
    { apply rsum_ext; intros l Hl; rewrite EI by assumption; reflexivity. }
    transitivity (rsum n (fun l => rsum n (fun j => G i j * (mentf A j l * x l)))).
    { apply rsum_ext; intros l Hl; rewrite <- rsum_scal_r; apply rsum_ext; intros; ring. }
    rewrite rsum_swap; apply rsum_ext; intros j Hj; apply rsum_scal_l. }
  rewrite E; eapply Rle_trans; [apply rsum_abs|].
  apply Rle_trans with (rsum n (fun j => Rabs (G i j) * t)).
  - apply LocalFacts.rsum_le; intros j Hj; rewrite Rabs_mult; apply Rmult_le_compat_l; [apply Rabs_pos|apply HT; exact Hj].
  - rewrite rsum_scal_r; apply Rmult_le_compat_r; [exact Pt|apply NI; exact Hi].
Qed.

(** Every well-conditioned matrix of finite numbers is inverted, and the product
    with the computed inverse differs from the identity by roundings only. *)
Theorem C97_inverse : forall n A M beta, finite_matrix n A M -> conditioned n M beta -> well_posed n A beta ->
  exists H, lu_inverse A = Some H /\
  finite_matrix n H (beta * (1 + inversion_error n M beta)) /\
  forall i j, (i < n)%nat -> (j < n)%nat ->
    Rabs (rsum n (fun l => mentf A i l * mentf H l j) - (if Nat.eqb i j then 1 else 0)) <= inversion_error n M beta.
Proof.
  intros n A M beta ((LA & LR) & FA) [DN (M1 & M2) (B1 & B2) SM] WP.
  pose proof u53_small as HU; destruct lo_hi as (P1 & P2 & P3).
  set (K := growth n) in *.
  assert (PK : 1 <= K) by (unfold K, growth; induction n; cbn [pow]; [lra|destruct n; [cbn; lra|]];
    clear; induction n; cbn [pow] in *; lra).
  assert (HN : 1 <= INR n) by (apply (le_INR 1); exact DN).
  assert (P300 : 0 < bpow radix2 (-300)) by apply bpow_gt_0.
  assert (MB : 1 <= M * beta).
  { assert (Q := WP (fun l => if Nat.eqb l 0 then 1 else 0) M ltac:(lra)).
    specialize (Q ltac:(intros i Hi; cbv beta; rewrite (rsum_delta_r n 0 (fun l => mentf A i l)) by lia; apply FA; [exact Hi|lia])
      O ltac:(lia)).
    cbn [Nat.eqb] in Q; rewrite Rabs_R1 in Q; lra. }
  assert (KMB : K <= K * M * beta) by (rewrite Rmult_assoc; rewrite <- (Rmult_1_r K) at 1; apply Rmult_le_compat_l; lra).
  assert (S1 : 80 * u53 * (INR n * INR n * INR n) * (K * M * beta) <= 1).
  { eapply Rle_trans; [|exact SM].
    replace (20 * INR n * INR n * u53 * (1 + 4 * INR n * (K * M * beta)))
      with (20 * u53 * (INR n * INR n) + 80 * u53 * (INR n * INR n * INR n) * (K * M * beta)) by ring.
    assert (0 <= 20 * u53 * (INR n * INR n)) by (apply Rmult_le_pos; nra); lra. }
  assert (N3 : INR n * INR n <= INR n * INR n * INR n /\ 1 <= INR n * INR n) by (split; nra).
  assert (S2 : 80 * u53 * (K * M * beta) <= 1).
  { eapply Rle_trans; [|exact S1]; apply Rmult_le_compat_r; [lra|].
    rewrite <- (Rmult_1_r (80 * u53)) at 1; apply Rmult_le_compat_l; lra. }
  assert (S3 : K <= bpow radix2 53).
  { assert (EU : u53 * bpow radix2 53 = 1) by (rewrite <- bpow_plus; reflexivity).
    apply Rmult_le_reg_l with u53; [lra|]; rewrite EU.
    assert (u53 * K <= u53 * (K * M * beta)) by (apply Rmult_le_compat_l; lra); nra. }
  assert (KM : K * M <= hi).
  { apply Rle_trans with (bpow radix2 53 * bpow radix2 300); [apply Rmult_le_compat; lra|].
    rewrite <- bpow_plus; apply bpow_le; lia. }
  assert (KH : K <= hi) by (apply Rle_trans with (1 := S3); apply bpow_le; lia).
  assert (CE : lo <= / (2 * beta)).
  { apply Rmult_le_reg_r with (2 * beta); [lra|]; rewrite Rinv_l by lra.
    apply Rle_trans with (lo * (bpow radix2 1 * bpow radix2 300)).
    - apply Rmult_le_compat_l; [lra|]; apply Rmult_le_compat; try lra; change (bpow radix2 1) with 2; lra.
    - rewrite <- !bpow_plus; change 1 with (bpow radix2 0); apply bpow_le; lia. }
  assert (LM : lo <= M) by (apply Rle_trans with (2 := M1); apply bpow_le; lia).
  assert (EW : INR n * (20 * INR n * u53 * (K + INR n * (K * M * (2 * K / / (2 * beta)))))
    = inversion_error n M beta).
  { unfold inversion_error; fold K; field; lra. }
  set (rows := combine A (@identity f64 _ n)).
  assert (FN : fine n n M 1 rows).
  { split; [apply rows_length; exact LA|].
    intros rb Hrb; destruct (combine_in A n rb LA Hrb) as (i & Hi & ->); cbn [fst snd].
    split; [apply LR, nth_In; rewrite LA; exact Hi|].
    split; [rewrite identity_row by exact Hi; rewrite map_length, seq_length; reflexivity|].
    split; intros j Hj; [apply FA; assumption|].
    unfold ent; rewrite identity_entry by assumption.
    destruct (Nat.eqb i j); [split; [reflexivity|]; rewrite (proj2 one_float), Rabs_R1; lra|].
    split; [reflexivity|]; change (key n0) with 0; rewrite Rabs_R0; lra. }
  assert (BL : below n rows (/ beta)).
  { intros x t Pt HT i Hi.
    assert (Q := WP x t Pt ltac:(intros l Hl; exact (HT _ (in_combine A n l LA Hl))) i Hi).
    apply Rmult_le_reg_l with beta; [exact B1|]; rewrite <- Rmult_assoc, Rinv_r by lra; lra. }
  destruct (lu_float n n (K * M) K (/ (2 * beta))) with (k := n) (rows := rows) (m := M) (D := 1) (c := / beta)
    as (u & EU & LX & LXr & FX & RX); try assumption; try lia; try lra.
  { assert (0 <= K * M) by (apply Rmult_le_pos; lra); lra. }
  { rewrite EW; unfold inversion_error; fold K.
    replace (20 * INR n * INR n * u53 * (K * (1 + 4 * INR n * (K * M * beta))))
      with (20 * INR n * INR n * u53 * (1 + 4 * INR n * (K * M * beta)) * K) by ring.
    apply Rle_trans with (1 * K); [apply Rmult_le_compat_r; lra|lra]. }
  { fold (growth n); fold K; lra. }
  { fold (growth n); fold K; lra. }
  { apply Rmult_le_reg_r with (2 * beta); [lra|].
    replace ((/ (2 * beta) + INR n * (9 * u53 * INR n * (K * M))) * (2 * beta))
      with (1 + 18 * u53 * (INR n * INR n) * (K * M * beta)) by (field; lra).
    replace (/ beta * (2 * beta)) with 2 by (field; lra).
    assert (18 * u53 * (INR n * INR n) * (K * M * beta) <= 80 * u53 * (INR n * INR n * INR n) * (K * M * beta)).
    { apply Rmult_le_compat_r; [lra|]; apply Rmult_le_compat; nra. }
    lra. }
  rewrite EW in RX.
  exists (lu_backward u); split; [unfold lu_inverse; rewrite LA; fold rows; rewrite EU; reflexivity|].
  set (H := lu_backward u) in *; clearbody H.
  assert (RES : forall i j, (i < n)%nat -> (j < n)%nat ->
    Rabs (rsum n (fun l => mentf A i l * mentf H l j) - (if Nat.eqb i j then 1 else 0)) <= inversion_error n M beta).
  { intros i j Hi Hj; assert (Q := RX _ (in_combine A n i LA Hi) j Hj); cbn [fst snd] in Q.
    unfold val, ent at 2 in Q; rewrite identity_entry in Q by assumption.
    replace (if Nat.eqb i j then 1 else 0) with (key (if Nat.eqb i j then n1 else n0)); [exact Q|].
    destruct (Nat.eqb i j); [apply one_float|reflexivity]. }
  split; [|exact RES].
  split; [split; assumption|]; intros i j Hi Hj; split; [apply FX; assumption|].
  apply (WP (fun l => mentf H l j)); [|intros l Hl|exact Hi].
  - pose proof (Rle_trans _ _ _ (Rabs_pos _) (RES i j Hi Hj)); lra.
  - pose proof (RES l j Hl Hj) as Q.
    pose proof (Rabs_triang_inv (rsum n (fun l0 => mentf A l l0 * mentf H l0 j)) (if Nat.eqb l j then 1 else 0)) as TR.
    assert (Rabs (if Nat.eqb l j then 1 else 0) <= 1) by (destruct (Nat.eqb l j); [rewrite Rabs_R1|rewrite Rabs_R0]; lra).
    lra.
Qed.
Print Assumptions C97_inverse.

(** The computed inverse is then also close to an inverse on the left of any
    slopes that the exact inverse nearly inverts. *)
Theorem C97_slopes : forall n A M beta G S sigma q, finite_matrix n A M -> conditioned n M beta ->
  exact_inverse n G A beta ->
  (forall i, (i < n)%nat -> rsum n (fun l => Rabs (S i l)) <= sigma) ->
  (forall i, (i < n)%nat ->
     rsum n (fun l => Rabs ((if Nat.eqb l i then 1 else 0) - rsum n (fun j => G i j * S j l))) <= q) ->
  let rho := INR n * inversion_error n M beta in
  exists H, lu_inverse A = Some H /\ nearly_inverse n H S (beta * (1 + rho)) (q + beta * rho * sigma).
Proof.
  intros n A M beta G S sigma q FA CD EX NS NQ rho.
  assert (PB : 0 < beta) by apply (cd_inverse _ _ _ CD).
  assert (HN : (1 <= n)%nat) by apply (cd_dim _ _ _ CD).
  destruct (C97_inverse n A M beta FA CD (well_posed_of_inverse n G A beta ltac:(lra) EX)) as (H & EH & FH & RES).
  exists H; split; [exact EH|].
  destruct FH as (SH & FH); destruct EX as (EI & NI).
  set (er := inversion_error n M beta) in *.
  assert (PE : 0 <= er) by exact (Rle_trans _ _ _ (Rabs_pos _) (RES O O HN HN)).
  set (Rm := fun i j => rsum n (fun l => mentf A i l * mentf H l j) - (if Nat.eqb i j then 1 else 0)).
  assert (EG : forall i j, (i < n)%nat -> (j < n)%nat -> mentf H i j = G i j + rsum n (fun k => G i k * Rm k j)).
  { intros i j Hi Hj.
    transitivity (rsum n (fun k => G i k * rsum n (fun l => mentf A k l * mentf H l j))).
    - transitivity (rsum n (fun l => (if Nat.eqb l i then 1 else 0) * mentf H l j));
        [symmetry; apply (rsum_delta n i (fun l => mentf H l j)); exact Hi|].
      transitivity (rsum n (fun l => rsum n (fun k => G i k * (mentf A k l * mentf H l j)))).
      { apply rsum_ext; intros l Hl; rewrite <- EI by assumption; rewrite <- rsum_scal_r; apply rsum_ext; intros; ring. }
      rewrite rsum_swap; apply rsum_ext; intros k Hk; apply rsum_scal_l.
    - transitivity (rsum n (fun k => G i k * (if Nat.eqb k j then 1 else 0)) + rsum n (fun k => G i k * Rm k j)).
      + rewrite <- rsum_plus; apply rsum_ext; intros k Hk; unfold Rm; ring.
      + rewrite (rsum_delta_r n j (G i)) by exact Hj; reflexivity. }
  assert (BR : forall i j, (i < n)%nat -> (j < n)%nat -> Rabs (rsum n (fun k => G i k * Rm k j)) <= beta * er).
  { intros i j Hi Hj; eapply Rle_trans; [apply rsum_abs|].
    apply Rle_trans with (rsum n (fun k => Rabs (G i k) * er)).
    - apply LocalFacts.rsum_le; intros k Hk; rewrite Rabs_mult; apply Rmult_le_compat_l; [apply Rabs_pos|].
      unfold Rm; apply RES; assumption.
    - rewrite rsum_scal_r; apply Rmult_le_compat_r; [exact PE|apply NI; exact Hi]. }
  split; [exact SH|]; split; [intros i j Hi Hj; apply FH; assumption|].
  split; intros i Hi.
  - apply Rle_trans with (rsum n (fun j => Rabs (G i j) + beta * er)).
    + apply LocalFacts.rsum_le; intros j Hj; rewrite EG by assumption.
      eapply Rle_trans; [apply Rabs_triang|]; apply Rplus_le_compat_l, BR; assumption.
    + rewrite rsum_plus, rsum_const; pose proof (NI i Hi); unfold rho.
      replace (beta * (1 + INR n * er)) with (beta + INR n * (beta * er)) by ring; lra.
  - set (D := fun j => rsum n (fun k => G i k * Rm k j)).
    apply Rle_trans with (rsum n (fun l => Rabs ((if Nat.eqb l i then 1 else 0) - rsum n (fun j => G i j * S j l))
      + rsum n (fun j => Rabs (D j) * Rabs (S j l)))).
    + apply LocalFacts.rsum_le; intros l Hl.
      assert (ES : rsum n (fun j => mentf H i j * S j l) = rsum n (fun j => G i j * S j l) + rsum n (fun j => D j * S j l)).
      { rewrite <- rsum_plus; apply rsum_ext; intros j Hj; rewrite EG by assumption; unfold D; ring. }
      rewrite ES.
      replace ((if Nat.eqb l i then 1 else 0) - (rsum n (fun j => G i j * S j l) + rsum n (fun j => D j * S j l)))
        with (((if Nat.eqb l i then 1 else 0) - rsum n (fun j => G i j * S j l)) + - rsum n (fun j => D j * S j l)) by ring.
      eapply Rle_trans; [apply Rabs_triang|]; rewrite Rabs_Ropp; apply Rplus_le_compat_l.
      eapply Rle_trans; [apply rsum_abs|]; apply Req_le, rsum_ext; intros; apply Rabs_mult.
    + rewrite rsum_plus; apply Rplus_le_compat; [apply NQ; exact Hi|].
      rewrite rsum_swap.
      apply Rle_trans with (rsum n (fun j => beta * er * sigma)).
      * apply LocalFacts.rsum_le; intros j Hj; rewrite rsum_scal_l.
        apply Rmult_le_compat; [apply Rabs_pos| |apply BR; assumption|apply NS; exact Hj].
        apply rsum_nonneg; intros; apply Rabs_pos.
      * rewrite rsum_const; unfold rho; apply Req_le; ring.
Qed.
Print Assumptions C97_slopes.

(** A matrix whose diagonal dominates its rows by [delta] is well posed. *)
Theorem C97_dominant : forall n A delta, 0 < delta ->
  (forall i, (i < n)%nat ->
     delta + rsum n (fun j => if Nat.eqb j i then 0 else Rabs (mentf A i j)) <= Rabs (mentf A i i)) ->
  well_posed n A (/ delta).
Proof.
  intros n A delta PD DM x t Pt HT i Hi.
  destruct (PropsFloat.largest n x ltac:(lia)) as (k & Hk & LG).
  assert (Q := HT k Hk).
  set (off := rsum n (fun l => (if Nat.eqb l k then 0 else mentf A k l) * x l)).
  assert (ES : rsum n (fun l => mentf A k l * x l) = mentf A k k * x k + off).
  { rewrite <- (rsum_delta n k (fun l => mentf A k l * x l)) by exact Hk; unfold off; rewrite <- rsum_plus.
    apply rsum_ext; intros l Hl; destruct (Nat.eqb l k); ring. }
  assert (BO : Rabs off <= rsum n (fun j => if Nat.eqb j k then 0 else Rabs (mentf A k j)) * Rabs (x k)).
  { eapply Rle_trans; [apply rsum_abs|]; rewrite <- rsum_scal_r; apply LocalFacts.rsum_le; intros l Hl.
    rewrite Rabs_mult; destruct (Nat.eqb l k); [rewrite Rabs_R0; lra|].
    apply Rmult_le_compat_l; [apply Rabs_pos|apply LG; exact Hl]. }
  assert (TR : Rabs (mentf A k k * x k) <= t + Rabs off).
  { replace (mentf A k k * x k) with ((mentf A k k * x k + off) + - off) by ring.
    eapply Rle_trans; [apply Rabs_triang|]; rewrite Rabs_Ropp, <- ES; lra. }
  rewrite Rabs_mult in TR.
  assert (DK := Rmult_le_compat_r (Rabs (x k)) _ _ (Rabs_pos _) (DM k Hk)).
  apply Rmult_le_reg_l with delta; [exact PD|]; rewrite <- Rmult_assoc, Rinv_r, Rmult_1_l by lra.
  apply Rle_trans with (delta * Rabs (x k)); [apply Rmult_le_compat_l; [lra|apply LG; exact Hi]|].
  rewrite Rmult_plus_distr_r in DK; lra.
Qed.
Print Assumptions C97_dominant.

(** ** The methods, with conditions on the jacobian alone *)
Section Methods.
Context (func : vec f64 -> vec f64) (n : nat) (xs : nat -> R) (r : R)
  (S : vec f64 -> nat -> nat -> R) (sigma e M beta q B : R).
Let rho := INR n * inversion_error n M beta.
Let b' := beta * (1 + rho).
Let q' := q + beta * rho * sigma.

(** The matrix [A] has an inverse of norm at most [beta] which nearly inverts the
    slopes [A']. *)
Definition fits (A : mat f64) (A' : nat -> nat -> R) : Prop :=
  finite_matrix n A M /\ exists G, exact_inverse n G A beta /\
  forall i, (i < n)%nat ->
    rsum n (fun l => Rabs ((if Nat.eqb l i then 1 else 0) - rsum n (fun j => G i j * A' j l))) <= q.

Lemma fits_inverse A A' : conditioned n M beta -> (forall i, (i < n)%nat -> rsum n (fun l => Rabs (A' i l)) <= sigma) ->
  fits A A' -> exists H, lu_inverse A = Some H /\ nearly_inverse n H A' b' q'.
Proof. intros CD NS (FA & G & EX & NQ); exact (C97_slopes n A M beta G A' sigma q FA CD EX NS NQ). Qed.

Theorem C97_newton : forall jac tol maxit x0 rf,
  computed func n xs r S sigma e -> conditioned n M beta -> contracting n xs r 0 sigma e b' q' B ->
  (forall x, around n xs r x -> fits (jac x) (S x)) ->
  isnan tol = false -> around n xs r x0 ->
  rootfinder_new (mkSolverParameters n tol maxit NewtonRaphson false) x0 (jac_iteratives64 n) (all_abs n) = Ret rf ->
  promised_float func n xs r 0 sigma e b' q' B tol maxit
    (solve (model_from_function_and_jacobian func jac) rf (user_model_new n)).
Proof.
  intros jac tol maxit x0 rf CP CD CT FT NT A0 HN.
  apply (C96_newton func jac n xs r S sigma e b' q' B tol maxit x0 rf); try assumption.
  intros x AX; split; [apply FT; exact AX|].
  apply fits_inverse; [exact CD|intros i Hi; apply (CP x AX); exact Hi|apply FT; exact AX].
Qed.

Theorem C97_finite_differences : forall delta its step tol maxit x0 rf,
  computed func n xs (r + delta) S sigma e -> conditioned n M beta -> contracting n xs r delta sigma e b' q' B ->
  Forall free_float its -> length its = n ->
  (forall x, around n xs r x -> small_shifts n its delta x (step x) /\
     fits (fd_float func n x (step x)) (S (shift x (n - 1) (nth (n - 1) (step x) n0)))) ->
  isnan tol = false -> around n xs r x0 ->
  rootfinder_new (mkSolverParameters n tol maxit NewtonRaphson false) x0 its (all_abs n) = Ret rf ->
  promised_float func n xs r delta sigma e b' q' B tol maxit (solve (model_from_function func) rf (user_model_new n)).
Proof.
  intros delta its step tol maxit x0 rf CP CD CT FI LI FT NT A0 HN.
  assert (N1 : (1 <= n)%nat) by apply (cd_dim _ _ _ CD).
  apply (C96_finite_differences func n xs r delta S sigma e b' q' B its step tol maxit x0 rf); try assumption.
  intros x AX; destruct (FT x AX) as (SS & FF); split; [exact SS|].
  apply fits_inverse; [exact CD| |exact FF].
  intros i Hi; refine (proj2 (proj2 (proj2 (CP _ _) i Hi))).
  apply (shift_around n xs r its delta x (step x) (n - 1) AX (ct_delta _ _ _ _ _ _ _ _ _ CT) SS); lia.
Qed.

Theorem C97_stationary : forall jac tol maxit x0 rf,
  computed func n xs r S sigma e -> conditioned n M beta -> contracting n xs r 0 sigma e b' q' B ->
  finite_matrix n (jac x0) M ->
  (exists G, exact_inverse n G (jac x0) beta /\ forall x, around n xs r x -> forall i, (i < n)%nat ->
    rsum n (fun l => Rabs ((if Nat.eqb l i then 1 else 0) - rsum n (fun j => G i j * S x j l))) <= q) ->
  isnan tol = false -> around n xs r x0 ->
  rootfinder_new (mkSolverParameters n tol maxit (QuasiNewton StationaryNewton) false) x0
    (jac_iteratives64 n) (all_abs n) = Ret rf ->
  promised_float func n xs r 0 sigma e b' q' B tol maxit
    (solve (model_from_function_and_jacobian func jac) rf (user_model_new n)).
Proof.
  intros jac tol maxit x0 rf CP CD CT FJ (G & EX & NQ) NT A0 HN.
  destruct (C97_slopes n (jac x0) M beta G (S x0) sigma q FJ CD EX) as (H & EH & _).
  { intros i Hi; apply (CP x0 A0); exact Hi. }
  { apply NQ; exact A0. }
  apply (C96_stationary func jac n xs r S sigma e b' q' B H tol maxit x0 rf); try assumption; [apply FJ|].
  intros x AX; destruct (C97_slopes n (jac x0) M beta G (S x) sigma q FJ CD EX) as (H' & EH' & NI).
  { intros i Hi; apply (CP x AX); exact Hi. }
  { apply NQ; exact AX. }
  rewrite EH in EH'; injection EH' as <-; exact NI.
Qed.
End Methods.
Print Assumptions C97_newton.
Print Assumptions C97_finite_differences.
Print Assumptions C97_stationary.

(** ** Cases *)
Definition tridiagonal : mat f64 := [[Fz 4; Fz 1; Fz 0]; [Fz 1; Fz 4; Fz 1]; [Fz 0; Fz 1; Fz 4]].

Lemma key_1 : isfin (Fz 1) = true /\ key (Fz 1) = 1 /\ isfin (Fz 0) = true /\ key (Fz 0) = 0.
Proof.
  split; [vm_compute; reflexivity|]; split; [|split; [vm_compute; reflexivity|]].
  - rewrite (key_sf (Fz 1) false 4503599627370496 (-52)) by (vm_compute; reflexivity); unfold F2R; cbn; lra.
  - vm_compute; reflexivity.
Qed.

Example C97_case : exists H, lu_inverse tridiagonal = Some H /\ finite_matrix 3 H 1 /\
  forall i j, (i < 3)%nat -> (j < 3)%nat ->
    Rabs (rsum 3 (fun l => mentf tridiagonal i l * mentf H l j) - (if Nat.eqb i j then 1 else 0)) <= / 1000000000.
Proof.
  destruct small_keys as (F4 & K4 & _); destruct key_1 as (F1 & K1 & F0 & K0).
  pose proof u53_value as UV; pose proof u53_small as HU.
  assert (G3 : growth 3 = 729 / 64) by (unfold growth; lra).
  assert (FT : finite_matrix 3 tridiagonal 4).
  { split; [split; [reflexivity|]; intros l [<-|[<-|[<-|[]]]]; reflexivity|].
    intros [|[|[|i]]] [|[|[|j]]] Hi Hj; try lia; (split; [assumption|]); unfold mentf; cbn [nth tridiagonal];
      rewrite ?K4, ?K1, ?K0; rewrite Rabs_pos_eq; lra. }
  assert (IE : inversion_error 3 4 (/ 2) <= / 1000000000 /\ 0 <= inversion_error 3 4 (/ 2)).
  { unfold inversion_error; rewrite G3; cbn [INR]; split; [|apply Rmult_le_pos; lra].
    apply Rle_trans with (563000 * u53); [|lra].
    match goal with |- ?a * u53 * ?c <= _ => replace (a * u53 * c) with (a * c * u53) by ring end.
    apply Rmult_le_compat_r; lra. }
  destruct (C97_inverse 3 tridiagonal 4 (/ 2) FT) as (H & EH & FH & RES).
  - constructor; [lia| | |rewrite G3; cbn [INR]; lra].
    + split; [apply Rle_trans with (bpow radix2 0); [apply bpow_le; lia|cbn; lra]|].
      apply Rle_trans with (bpow radix2 2); [cbn; lra|apply bpow_le; lia].
    + split; [lra|]; apply Rle_trans with (bpow radix2 0); [cbn; lra|apply bpow_le; lia].
  - apply C97_dominant; [lra|].
    intros [|[|[|i]]] Hi; try lia; cbn [rsum Nat.eqb]; unfold mentf; cbn [nth tridiagonal];
      rewrite ?K4, ?K1, ?K0, ?Rabs_R0, ?Rabs_R1, ?(Rabs_pos_eq 4); lra.
  - exists H; split; [exact EH|]; split.
    + destruct FH as (SH & FH); split; [exact SH|]; intros i j Hi Hj; destruct (FH i j Hi Hj) as (Q1 & Q2).
      split; [exact Q1|lra].
    + intros i j Hi Hj; eapply Rle_trans; [apply RES; assumption|lra].
Qed.

(** The documented refusal of singular matrices does not survive the roundings:
    a singular matrix may be inverted, and a regular one refused. *)
Lemma key_49 : key (Fz 49) = 49 /\ key (Fz 98) = 98 /\
  key (ndec 9007199254740991 4503599627370496 : f64) = 9007199254740991 / 4503599627370496.
Proof.
  split; [|split].
  - rewrite (key_sf (Fz 49) false 6896136929411072 (-47)) by (vm_compute; reflexivity); unfold F2R; cbn; lra.
  - rewrite (key_sf (Fz 98) false 6896136929411072 (-46)) by (vm_compute; reflexivity); unfold F2R; cbn; lra.
  - rewrite (key_sf _ false 9007199254740991 (-52)) by (vm_compute; reflexivity); unfold F2R; cbn; lra.
Qed.
Theorem C97_singular_accepted : exists A : mat f64,
  (exists x : nat -> R, x O <> 0 /\ forall i, (i < 2)%nat -> rsum 2 (fun l => mentf A i l * x l) = 0) /\
  exists H, lu_inverse A = Some H /\ squaref 2 H /\
  forall i j, (i < 2)%nat -> (j < 2)%nat -> isfin (nth j (nth i H []) n0) = true.
Proof.
  exists [[Fz 1; Fz 2]; [Fz 49; Fz 98]]; split.
  - exists (fun l => if Nat.eqb l 0 then 2 else -1); split; [cbn; lra|].
    destruct key_1 as (_ & K1 & _); destruct key_2 as (K2 & _); destruct key_49 as (K49 & K98 & _).
    intros [|[|i]] Hi; try lia; cbn [rsum Nat.eqb]; unfold mentf; cbn [nth]; rewrite ?K1, ?K2, ?K49, ?K98; lra.
  - assert (C : match lu_inverse [[Fz 1; Fz 2]; [Fz 49; Fz 98]] with
      | Some [[a; b]; [c; d]] => isfin a && isfin b && isfin c && isfin d
      | _ => false end = true) by (vm_compute; reflexivity).
    destruct (lu_inverse [[Fz 1; Fz 2]; [Fz 49; Fz 98]]) as [H|]; [|discriminate]; exists H; split; [reflexivity|].
    destruct H as [|[|a [|b [|? ?]]] [|[|c [|d [|? ?]]] [|? ?]]]; try discriminate.
    apply andb_prop in C as (C & F4); apply andb_prop in C as (C & F3); apply andb_prop in C as (F1 & F2).
    split; [split; [reflexivity|]; intros l [<-|[<-|[]]]; reflexivity|].
    intros [|[|i]] [|[|j]] Hi Hj; try lia; assumption.
Qed.
Print Assumptions C97_singular_accepted.

Theorem C97_regular_refused : exists (A : mat f64) (beta : R), well_posed 2 A beta /\ lu_inverse A = None.
Proof.
  exists [[Fz 1; ndec 9007199254740991 4503599627370496]; [Fz 49; Fz 98]], (9007199254740992 * 1000); split.
  - apply (well_posed_of_inverse 2
      (fun i j => (if Nat.eqb i 0 then (if Nat.eqb j 0 then 98 else - (9007199254740991 / 4503599627370496))
                   else (if Nat.eqb j 0 then -49 else 1)) * (4503599627370496 / 49))); [lra|].
    destruct key_1 as (_ & K1 & _); destruct key_49 as (K49 & K98 & KE).
    split.
    + intros [|[|i]] [|[|l]] Hi Hl; try lia; cbn [rsum Nat.eqb]; unfold mentf; cbn [nth];
        rewrite ?K1, ?K49, ?K98, ?KE; lra.
    + intros [|[|i]] Hi; try lia; cbn [rsum Nat.eqb]; rewrite !Rabs_mult.
      * rewrite Rabs_Ropp, !Rabs_pos_eq by lra; lra.
      * rewrite (Rabs_pos_eq (4503599627370496 / 49)), (Rabs_pos_eq 1), (Rabs_left (-49)) by lra; lra.
  - assert (C : match lu_inverse [[Fz 1; ndec 9007199254740991 4503599627370496]; [Fz 49; Fz 98]] with
      | None => true | Some _ => false end = true) by (vm_compute; reflexivity).
    destruct (lu_inverse _); [discriminate|reflexivity].
Qed.
Print Assumptions C97_regular_refused.

(** The two equations of [pair_func] with their full jacobian: one iteration is
    enough from every guess within 1 of the root. *)
Definition pair_full (_ : vec f64) : mat f64 := [[Fz 4; Fz 1]; [Fz 1; Fz 4]].

Example C97_case_2 : forall x0 y0 maxit, isfin x0 = true -> isfin y0 = true ->
  Rabs (key x0 - 1) <= 1 -> Rabs (key y0 - 1) <= 1 -> (1 <= maxit)%nat ->
  exists rf, rootfinder_new (mkSolverParameters 2 (ndec 1 1000000) maxit NewtonRaphson false) [x0; y0]
    (jac_iteratives64 2) (all_abs 2) = Ret rf /\
  exists rf' s', solve (model_from_function_and_jacobian pair_func pair_full) rf (user_model_new 2) = Ret (rf', s', Ok tt) /\
    (rf_iter rf' <= 1)%nat.
Proof.
  intros x0 y0 maxit Fx Fy Ax Ay HM.
  destruct (rootfinder_new (mkSolverParameters 2 (ndec 1 1000000) maxit NewtonRaphson false) [x0; y0]
    (jac_iteratives64 2) (all_abs 2)) as [rf|pn] eqn:HN; [|discriminate].
  exists rf; split; [reflexivity|].
  pose proof u53_small as HU; pose proof u53_value as UV; pose proof tiny_pos as HT; pose proof huge_big as HH.
  assert (H10 : 1024 <= huge) by (change 1024 with (bpow radix2 10); apply bpow_le; lia).
  destruct small_keys as (F4 & K4 & _); destruct key_1 as (F1 & K1 & _).
  assert (G2 : growth 2 = 81 / 16) by (unfold growth; lra).
  set (rho := INR 2 * inversion_error 2 4 (/ 3)).
  assert (BR : 0 <= rho <= 44600 * u53).
  { unfold rho, inversion_error; rewrite G2; cbn [INR].
    match goal with |- 0 <= ?t <= _ => replace t with (44550 * u53) by lra end; lra. }
  assert (CD : conditioned 2 4 (/ 3)).
  { constructor; [lia| | |rewrite G2; cbn [INR]; lra].
    - split; [apply Rle_trans with (bpow radix2 0); [apply bpow_le; lia|cbn; lra]|].
      apply Rle_trans with (bpow radix2 2); [cbn; lra|apply bpow_le; lia].
    - split; [lra|]; apply Rle_trans with (bpow radix2 0); [cbn; lra|apply bpow_le; lia]. }
  set (b := / 3 * (1 + rho)); set (q := 0 + / 3 * rho * 5).
  assert (Bb : 0 <= b <= 0.34) by (unfold b; lra).
  assert (Bq : 0 <= q <= 80000 * u53) by (unfold q; lra).
  assert (RO : 0 <= roundings 2 b (5 * (1 + 0) + 40 * u53) 2 (40 * u53) <= 40 * u53).
  { unfold roundings; change (INR 2) with 2.
    assert (0 <= u53 * (b * (5 * (1 + 0) + 40 * u53)) <= u53 * 2).
    { assert (0 <= b * (5 * (1 + 0) + 40 * u53) <= 0.34 * 5.1).
      { split; [apply Rmult_le_pos; lra|apply Rmult_le_compat; lra]. }
      split; [apply Rmult_le_pos; lra|apply Rmult_le_compat_l; lra]. }
    assert (0 <= b * (40 * u53) <= 0.34 * (40 * u53)) by (split; [apply Rmult_le_pos; lra|apply Rmult_le_compat_r; lra]).
    lra. }
  assert (CT : contracting 2 (fun _ => 1) 1 0 5 (40 * u53) b q 2).
  { constructor; try lra; [intros; rewrite Rabs_R1; lra| |change (INR 2) with 2; lra].
    apply Rle_trans with (0.34 * 6); [apply Rmult_le_compat; lra|lra]. }
  assert (CP : computed pair_func 2 (fun _ => 1) 1 pair_slopes 5 (40 * u53)).
  { intros x (L & A); destruct x as [|a [|c [|? ?]]]; try discriminate.
    destruct (A O ltac:(lia)) as (Fa & Aa); destruct (A 1%nat ltac:(lia)) as (Fc & Ac).
    split; [reflexivity|]; intros [|[|i]] Hi; try lia; cbn [rsum]; unfold pair_slopes; cbn [Nat.eqb].
    - destruct (pair_value a c Fa Fc Aa Ac) as (V1 & V2); split; [exact V1|]; split.
      + change (ent (pair_func [a; c]) 0) with (key (nsub (nadd (nmul (Fz 4) a) c) (Fz 5))).
        change (ent [a; c] 0) with (key a); change (ent [a; c] 1) with (key c).
        replace (4 * (key a - 1) + (1 * (key c - 1) + 0)) with (4 * (key a - 1) + (key c - 1)) by ring; exact V2.
      + rewrite !Rabs_pos_eq by lra; lra.
    - destruct (pair_value c a Fc Fa Ac Aa) as (V1 & V2); split; [exact V1|]; split.
      + change (ent (pair_func [a; c]) 1) with (key (nsub (nadd (nmul (Fz 4) c) a) (Fz 5))).
        change (ent [a; c] 0) with (key a); change (ent [a; c] 1) with (key c).
        replace (1 * (key a - 1) + (4 * (key c - 1) + 0)) with (4 * (key c - 1) + (key a - 1)) by ring; exact V2.
      + rewrite !Rabs_pos_eq by lra; lra. }
  assert (A0 : around 2 (fun _ => 1) 1 [x0; y0])
    by (split; [reflexivity|]; intros [|[|i]] Hi; try lia; split; assumption).
  assert (PR : promised_float pair_func 2 (fun _ => 1) 1 0 5 (40 * u53) b q 2 (ndec 1 1000000) maxit
    (solve (model_from_function_and_jacobian pair_func pair_full) rf (user_model_new 2))).
  { apply (C97_newton pair_func 2 (fun _ => 1) 1 pair_slopes 5 (40 * u53) 4 (/ 3) 0 2 pair_full (ndec 1 1000000) maxit
      [x0; y0] rf CP CD CT); [|exact (proj1 close_tolerance)|exact A0|exact HN].
    intros x _; split.
    - split; [split; [reflexivity|]; unfold pair_full; intros l HL; cbn [In] in HL; destruct HL as [<-|[<-|[]]]; reflexivity|].
      intros [|[|i]] [|[|j]] Hi Hj; try lia; (split; [assumption|]); unfold mentf; cbn [nth pair_full];
        rewrite ?K4, ?K1, Rabs_pos_eq; lra.
    - exists (fun i j => if Nat.eqb i j then 4 / 15 else - (1 / 15)); split; [split|].
      + intros [|[|i]] [|[|l]] Hi Hl; try lia; cbn [rsum Nat.eqb]; unfold mentf; cbn [nth pair_full]; rewrite ?K4, ?K1; lra.
      + intros [|[|i]] Hi; try lia; cbn [rsum Nat.eqb]; rewrite Rabs_Ropp, !Rabs_pos_eq; lra.
      + intros [|[|i]] Hi; try lia; cbn [rsum Nat.eqb]; unfold pair_slopes; cbn [Nat.eqb];
          match goal with |- Rabs ?u + (Rabs ?v + _) <= _ => replace u with 0 by lra; replace v with 0 by lra end;
          rewrite Rabs_R0; lra. }
  destruct PR as (rf' & s' & y & EY & _ & AY & _ & TT & PR); destruct close_tolerance as (_ & T1 & T2).
  destruct (PR 1%nat HM) as (O1 & O2); [|exists rf', s'; split; assumption].
  apply Rle_trans with (2 := T1); change (bpow radix2 (-20)) with (/ 1048576).
  set (ro := roundings _ _ _ _ _) in *; clearbody ro.
  assert ((q * 0 + ro) / (1 - q) <= 80 * u53).
  { apply Rmult_le_reg_r with (1 - q); [lra|]; unfold Rdiv; rewrite Rmult_assoc, Rinv_l by lra.
    assert (80 * u53 * (1 / 2) <= 80 * u53 * (1 - q)) by (apply Rmult_le_compat_l; lra); lra. }
  cbn [pow]; lra.
Qed.
