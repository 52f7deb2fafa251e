(** C57 (the jacobians of the shipped test problems) and C61 (their documented
    solutions), in exact arithmetic. *)
From Coq Require Import Reals Lra.
From Verif Require Import Base Num Linalg RNum TestCases.
Open Scope R_scope.

(** [x] with component [j] replaced by [u]. *)
Definition replaced (x : vec R) (j : nat) (u : R) : vec R :=
  firstn j x ++ u :: skipn (S j) x.

(** [l] is the derivative of component [i] of [f] with respect to variable [j]
    at [x]; the function has a value everywhere on the line. *)
Definition partial_derivative (f : vec R -> outcome (vec R)) (x : vec R) (i j : nat) (l : R) : Prop :=
  (forall u, exists v, f (replaced x j u) = Ret v /\ (i < length v)%nat) /\
  derivable_pt_lim (fun u => match f (replaced x j u) with Ret v => vent v i | Panic _ => 0 end)
    (vent x j) l.

Lemma length_replaced x j u : (j < length x)%nat -> length (replaced x j u) = length x.
Proof.
  intros H; unfold replaced; rewrite app_length, firstn_length; cbn [length]; rewrite skipn_length; lia.
Qed.
Lemma vent_replaced : forall x j u k, (j < length x)%nat ->
  vent (replaced x j u) k = if Nat.eqb k j then u else vent x k.
Proof.
  induction x as [|a x IH]; intros j u k H; [cbn in H; lia|].
  destruct j as [|j].
  - destruct k as [|k]; reflexivity.
  - destruct k as [|k]; [reflexivity|].
    cbn [length] in H; exact (IH j u k ltac:(lia)).
Qed.

Lemma rsum_last : forall n f, rsum (S n) f = rsum n f + f n.
Proof.
  induction n as [|n IH]; intros f; [cbn; lra|].
  change (rsum (S (S n)) f) with (f 0%nat + rsum (S n) (fun i => f (S i))).
  rewrite IH; cbn [rsum]; lra.
Qed.

Lemma dpl_eq f t l l' : derivable_pt_lim f t l' -> l' = l -> derivable_pt_lim f t l.
Proof. intros H <-; exact H. Qed.

Lemma derivable_rsum : forall n (f : nat -> R -> R) l t,
  (forall k, (k < n)%nat -> derivable_pt_lim (f k) t (l k)) ->
  derivable_pt_lim (fun u => rsum n (fun k => f k u)) t (rsum n l).
Proof.
  induction n as [|n IH]; intros f l t H; cbn [rsum].
  - apply (derivable_pt_lim_const 0 t).
  - apply (derivable_pt_lim_plus (f 0%nat) (fun u => rsum n (fun k => f (S k) u))).
    + apply H; lia.
    + apply (IH (fun k => f (S k)) (fun k => l (S k))); intros; apply H; lia.
Qed.

(** ** Cases 5 to 8 *)

(** Equation [k] minus the previous one. *)
Definition increment (alpha beta : R) (x : vec R) (k : nat) : R :=
  - (3 + alpha * vent x k) * vent x k
  + (if Nat.ltb (S k) (length x) then 2 * vent x (S k) else 0) - beta.

Lemma from_entries alpha beta : forall x prev,
  length (cases5to8_from alpha beta prev x) = length x /\
  forall i, (i < length x)%nat ->
    vent (cases5to8_from alpha beta prev x) i = prev + rsum (S i) (increment alpha beta x).
Proof.
  induction x as [|a x IH]; intros prev.
  - split; [reflexivity|]; intros i H; cbn in H; lia.
  - destruct x as [|b x].
    + split; [reflexivity|]; intros [|i] H; [|cbn in H; lia].
      unfold increment, quad; cbn.  lra.
    + set (o := prev - (3 + alpha * a) * a + 2 * b - beta).
      change (cases5to8_from alpha beta prev (a :: b :: x))
        with (o :: cases5to8_from alpha beta o (b :: x)).
      destruct (IH o) as [L K]; split.
      * cbn [length] in *; lia.
      * assert (E0 : increment alpha beta (a :: b :: x) 0 = o - prev).
        { unfold increment, o; cbn; lra. }
        assert (ES : forall k, increment alpha beta (a :: b :: x) (S k) = increment alpha beta (b :: x) k).
        { intros k; unfold increment; cbn [length].
          change (vent (a :: b :: x) (S k)) with (vent (b :: x) k).
          change (vent (a :: b :: x) (S (S k))) with (vent (b :: x) (S k)).
          destruct (Nat.ltb_spec (S (S k)) (S (S (length x)))), (Nat.ltb_spec (S k) (S (length x)));
            try lia; reflexivity. }
        intros [|i] H.
        -- cbn [rsum]; rewrite E0; unfold vent; cbn [nth]; lra.
        -- change (vent (o :: cases5to8_from alpha beta o (b :: x)) (S i))
             with (vent (cases5to8_from alpha beta o (b :: x)) i).
           rewrite K by (cbn [length] in *; lia).
           change (rsum (S (S i)) (increment alpha beta (a :: b :: x)))
             with (increment alpha beta (a :: b :: x) 0
                   + rsum (S i) (fun k => increment alpha beta (a :: b :: x) (S k))).
           rewrite (rsum_ext (S i) _ _ (fun k _ => ES k)), E0; lra.
Qed.

Lemma cases5to8_entries alpha beta x : (2 <= length x)%nat -> exists out,
  broyden1965_cases5to8 x alpha beta = Ret out /\ length out = length x /\
  forall i, (i < length x)%nat -> vent out i = rsum (S i) (increment alpha beta x).
Proof.
  intros H; destruct x as [|a [|b x]]; [cbn in H; lia|cbn in H; lia|].
  set (o := - (3 + alpha * a) * a + 2 * b - beta).
  exists (o :: cases5to8_from alpha beta o (b :: x)); split; [reflexivity|].
  destruct (from_entries alpha beta (a :: b :: x) 0) as [L K].
  assert (E : cases5to8_from alpha beta 0 (a :: b :: x) = o :: cases5to8_from alpha beta o (b :: x)).
  { change (cases5to8_from alpha beta 0 (a :: b :: x))
      with ((0 - (3 + alpha * a) * a + 2 * b - beta)
            :: cases5to8_from alpha beta (0 - (3 + alpha * a) * a + 2 * b - beta) (b :: x)).
    replace (0 - (3 + alpha * a) * a + 2 * b - beta) with o by (unfold o; lra); reflexivity. }
  rewrite E in L, K; split; [exact L|].
  intros i Hi; rewrite (K i Hi); lra.
Qed.

(** Row [i] of the jacobian is the sum of the rows of the increments. *)
Definition slope (alpha : R) (x : vec R) (j k : nat) : R :=
  if Nat.eqb j k then -3 - 2 * alpha * vent x k else if Nat.eqb j (S k) then 2 else 0.

Lemma row_entry n i alpha a j : (j < n)%nat ->
  vent (cases5to8_row n i alpha a : vec R) j
  = if Nat.eqb j i then -3 - 2 * alpha * a else if Nat.eqb j (S i) then 2 else 0.
Proof.
  intros H; unfold vent, cases5to8_row.
  rewrite (nth_map_in _ _ _ _ 0%nat) by (rewrite seq_length; exact H).
  rewrite seq_nth by exact H; reflexivity.
Qed.
Lemma row_length n i alpha (a : R) : length (cases5to8_row n i alpha a) = n.
Proof. unfold cases5to8_row; rewrite map_length; apply seq_length. Qed.

Lemma jac_from_entries n alpha : forall x i prev, length prev = n ->
  length (cases5to8_jac_from n i alpha prev x) = length x /\
  forall r j, (r < length x)%nat -> (j < n)%nat ->
    length (nth r (cases5to8_jac_from n i alpha prev x) []) = n /\
    ment (cases5to8_jac_from n i alpha prev x) r j
    = vent prev j + rsum (S r) (fun k =>
        if Nat.eqb j (i + k) then -3 - 2 * alpha * vent x k
        else if Nat.eqb j (S (i + k)) then 2 else 0).
Proof.
  induction x as [|a x IH]; intros i prev LP.
  - split; [reflexivity|]; intros r j H; cbn in H; lia.
  - cbn [cases5to8_jac_from].
    set (row := map2 nadd (cases5to8_row n i alpha a) prev).
    assert (LR : length row = n).
    { unfold row; rewrite map2_length; [apply row_length|].
      exact (eq_trans (row_length n i alpha a) (eq_sym LP)). }
    assert (ER : forall j, (j < n)%nat -> vent row j = vent (cases5to8_row n i alpha a) j + vent prev j).
    { intros j Hj; unfold vent at 1, row.
      rewrite (nth_map2_in _ _ 0 0); [reflexivity|exact (eq_trans (row_length n i alpha a) (eq_sym LP))|].
      rewrite row_length; exact Hj. }
    destruct (IH (S i) row LR) as [L K].
    split; [cbn [length]; lia|].
    intros [|r] j Hr Hj.
    + split; [exact LR|].
      change (ment (row :: cases5to8_jac_from n (S i) alpha row x) 0 j) with (vent row j).
      rewrite (ER j Hj), (row_entry n i alpha a j Hj); cbn [rsum].
      rewrite Nat.add_0_r; change (vent (a :: x) 0) with a; lra.
    + cbn [length] in Hr; destruct (K r j ltac:(lia) Hj) as [K1 K2]; split; [exact K1|].
      change (ment (row :: cases5to8_jac_from n (S i) alpha row x) (S r) j)
        with (ment (cases5to8_jac_from n (S i) alpha row x) r j).
      rewrite K2, (ER j Hj), (row_entry n i alpha a j Hj).
      change (rsum (S (S r)) ?f) with (f 0%nat + rsum (S r) (fun k => f (S k))).
      cbn beta; rewrite Nat.add_0_r; change (vent (a :: x) 0) with a.
      rewrite (rsum_ext (S r) (fun k => if Nat.eqb j (i + S k) then _ else _)
        (fun k => if Nat.eqb j (S i + k) then -3 - 2 * alpha * vent x k
                  else if Nat.eqb j (S (S i + k)) then 2 else 0)).
      * lra.
      * intros k _; rewrite Nat.add_succ_r; reflexivity.
Qed.

Lemma cases5to8_jac_entries alpha x : (2 <= length x)%nat -> exists J,
  broyden1965_cases5to8_jac x alpha = Ret J /\ length J = length x /\
  forall i j, (i < length x)%nat -> (j < length x)%nat ->
    length (nth i J []) = length x /\ ment J i j = rsum (S i) (slope alpha x j).
Proof.
  intros H; destruct x as [|a [|b x]]; [cbn in H; lia|cbn in H; lia|].
  set (n := length (a :: b :: x)).
  set (row := cases5to8_row n 0 alpha a).
  exists (row :: cases5to8_jac_from n 1 alpha row (b :: x)); split; [reflexivity|].
  destruct (jac_from_entries n alpha (b :: x) 1 row (row_length n 0 alpha a)) as [L K].
  split; [cbn [length] in *; lia|].
  intros [|i] j Hi Hj.
  - split; [apply row_length|].
    change (ment (row :: cases5to8_jac_from n 1 alpha row (b :: x)) 0 j) with (vent row j).
    unfold row; rewrite row_entry by exact Hj; cbn [rsum]; unfold slope; change (vent (a :: b :: x) 0) with a; lra.
  - destruct (K i j ltac:(unfold n in Hi; cbn [length] in *; lia) Hj) as [K1 K2]; split; [exact K1|].
    change (ment (row :: cases5to8_jac_from n 1 alpha row (b :: x)) (S i) j)
      with (ment (cases5to8_jac_from n 1 alpha row (b :: x)) i j).
    rewrite K2; unfold row; rewrite row_entry by exact Hj.
    change (rsum (S (S i)) (slope alpha (a :: b :: x) j))
      with (slope alpha (a :: b :: x) j 0 + rsum (S i) (fun k => slope alpha (a :: b :: x) j (S k))).
    reflexivity.
Qed.

Lemma increment_derivative alpha beta x j k : (j < length x)%nat -> (k < length x)%nat ->
  derivable_pt_lim (fun u => increment alpha beta (replaced x j u) k) (vent x j) (slope alpha x j k).
Proof.
  intros Hj Hk; unfold slope.
  destruct (Nat.eqb_spec j k) as [<-|N].
  - set (c := (if Nat.ltb (S j) (length x) then 2 * vent x (S j) else 0) - beta).
    apply (derivable_pt_lim_ext (fun u => (- alpha * u + -3) * u + c)).
    + intros u; unfold increment; rewrite length_replaced, !vent_replaced by exact Hj.
      rewrite Nat.eqb_refl; destruct (Nat.eqb_spec (S j) j); [lia|]; unfold c; lra.
    + replace (-3 - 2 * alpha * vent x j)
        with (((- alpha * 1 + 0) * vent x j + (- alpha * vent x j + -3) * 1) + 0) by lra.
      apply (derivable_pt_lim_plus (fun u => (- alpha * u + -3) * u) (fun _ => c));
        [|apply derivable_pt_lim_const].
      apply (derivable_pt_lim_mult (fun u => - alpha * u + -3) id); [|apply derivable_pt_lim_id].
      apply (derivable_pt_lim_plus (fun u => - alpha * u) (fun _ => -3)); [|apply derivable_pt_lim_const].
      apply (derivable_pt_lim_scal id), derivable_pt_lim_id.
  - destruct (Nat.eqb_spec j (S k)) as [->|N2].
    + set (c := - (3 + alpha * vent x k) * vent x k - beta).
      apply (derivable_pt_lim_ext (fun u => 2 * u + c)).
      * intros u; unfold increment; rewrite length_replaced, !vent_replaced by exact Hj.
        rewrite Nat.eqb_refl; destruct (Nat.eqb_spec k (S k)); [lia|].
        destruct (Nat.ltb_spec (S k) (length x)); [|lia]; unfold c; lra.
      * apply (dpl_eq _ _ _ (2 * 1 + 0)); [|lra].
        apply (derivable_pt_lim_plus (fun u => 2 * u) (fun _ => c)); [|apply derivable_pt_lim_const].
        apply (derivable_pt_lim_scal id), derivable_pt_lim_id.
    + apply (derivable_pt_lim_ext (fun _ => increment alpha beta x k)); [|apply derivable_pt_lim_const].
      intros u; unfold increment; rewrite length_replaced, !vent_replaced by exact Hj.
      destruct (Nat.eqb_spec k j); [lia|]; destruct (Nat.eqb_spec (S k) j); [lia|reflexivity].
Qed.

Lemma cases5to8_derivative alpha beta x : (2 <= length x)%nat -> exists J,
  broyden1965_cases5to8_jac x alpha = Ret J /\ is_mat (length x) J /\
  forall i j, (i < length x)%nat -> (j < length x)%nat ->
    partial_derivative (fun z => broyden1965_cases5to8 z alpha beta) x i j (ment J i j).
Proof.
  intros H; destruct (cases5to8_jac_entries alpha x H) as (J & EJ & LJ & K).
  exists J; split; [exact EJ|]; split.
  { split; [exact LJ|]; intros i Hi; exact (proj1 (K i 0%nat Hi ltac:(lia))). }
  intros i j Hi Hj; rewrite (proj2 (K i j Hi Hj)); split.
  - intros u; destruct (cases5to8_entries alpha beta (replaced x j u)) as (out & E & L & _).
    + rewrite length_replaced; assumption.
    + exists out; split; [exact E|]; rewrite L, length_replaced; assumption.
  - apply (derivable_pt_lim_ext (fun u => rsum (S i) (increment alpha beta (replaced x j u)))).
    + intros u; destruct (cases5to8_entries alpha beta (replaced x j u)) as (out & E & L & V).
      * rewrite length_replaced; assumption.
      * rewrite E; symmetry; apply V; rewrite length_replaced; assumption.
    + apply (derivable_rsum (S i) (fun k u => increment alpha beta (replaced x j u) k)).
      intros k Hk; apply increment_derivative; [exact Hj|lia].
Qed.

Theorem C57_cases_5_to_8 : forall x, (2 <= length x)%nat ->
  (exists J, broyden1965_case5_jac x = Ret J /\ is_mat (length x) J /\
     forall i j, (i < length x)%nat -> (j < length x)%nat ->
       partial_derivative broyden1965_case5 x i j (ment J i j)) /\
  (exists J, broyden1965_case6_jac x = Ret J /\ is_mat (length x) J /\
     forall i j, (i < length x)%nat -> (j < length x)%nat ->
       partial_derivative broyden1965_case6 x i j (ment J i j)) /\
  (exists J, broyden1965_case7_jac x = Ret J /\ is_mat (length x) J /\
     forall i j, (i < length x)%nat -> (j < length x)%nat ->
       partial_derivative broyden1965_case7 x i j (ment J i j)) /\
  (exists J, broyden1965_case8_jac x = Ret J /\ is_mat (length x) J /\
     forall i j, (i < length x)%nat -> (j < length x)%nat ->
       partial_derivative broyden1965_case8 x i j (ment J i j)).
Proof.
  intros x H; split; [|split; [|split]]; apply cases5to8_derivative; exact H.
Qed.
Print Assumptions C57_cases_5_to_8.

(** ** Cases 9 and 10, and the polynomials *)

(** Normal form: a polynomial of degree at most three and its derivative. *)
Lemma cubic_derivative a b c d t :
  derivable_pt_lim (fun u => a + b * u + c * (u * u) + d * (u * (u * u))) t
    (b + c * (2 * t) + d * (3 * (t * t))).
Proof.
  assert (D2 : derivable_pt_lim (fun u => u * u) t (2 * t)).
  { apply (dpl_eq _ _ _ (1 * t + t * 1)); [|lra].
    apply (derivable_pt_lim_mult id id); apply derivable_pt_lim_id. }
  assert (D3 : derivable_pt_lim (fun u => u * (u * u)) t (3 * (t * t))).
  { apply (dpl_eq _ _ _ (1 * (t * t) + t * (2 * t))); [|lra].
    apply (derivable_pt_lim_mult id (fun u => u * u)); [apply derivable_pt_lim_id|exact D2]. }
  apply (dpl_eq _ _ _ (0 + b * 1 + c * (2 * t) + d * (3 * (t * t)))); [|lra].
  apply (derivable_pt_lim_plus (fun u => a + b * u + c * (u * u)) (fun u => d * (u * (u * u))));
    [|exact (derivable_pt_lim_scal _ d t _ D3)].
  apply (derivable_pt_lim_plus (fun u => a + b * u) (fun u => c * (u * u)));
    [|exact (derivable_pt_lim_scal _ c t _ D2)].
  apply (derivable_pt_lim_plus (fun _ => a) (fun u => b * u)); [apply derivable_pt_lim_const|].
  apply (derivable_pt_lim_scal id), derivable_pt_lim_id.
Qed.

Lemma cubic f t l a b c d :
  (forall u, a + b * u + c * (u * u) + d * (u * (u * u)) = f u) ->
  b + c * (2 * t) + d * (3 * (t * t)) = l -> derivable_pt_lim f t l.
Proof.
  intros E L; apply (dpl_eq _ _ _ _ (derivable_pt_lim_ext _ _ _ _ E (cubic_derivative a b c d t)) L).
Qed.

Theorem C57_case_9 : forall x0 x1, exists J,
  broyden1965_case9_jac [x0; x1] = Ret J /\ is_mat 2 J /\
  forall i j, (i < 2)%nat -> (j < 2)%nat ->
  partial_derivative broyden1965_case9 [x0; x1] i j (ment J i j).
Proof.
  intros x0 x1; eexists; split; [reflexivity|]; split.
  { split; [reflexivity|]; intros [|[|k]] Hk; try reflexivity; lia. }
  intros i [|[|j]] Hi Hj; [| |lia];
    (split; [intros u; eexists; split; [reflexivity|exact Hi]|]);
    destruct i as [|[|i]]; try lia.
  - apply (cubic _ _ _ (10 * x1) 0 (-10) 0); [intros u|]; unfold ment, vent, nsq; cbn; lra.
  - apply (cubic _ _ _ 1 (-1) 0 0); [intros u|]; unfold ment, vent; cbn; lra.
  - apply (cubic _ _ _ (-10 * (x0 * x0)) 10 0 0); [intros u|]; unfold ment, vent, nsq; cbn; lra.
  - apply (cubic _ _ _ (1 - x0) 0 0 0); [intros u|]; unfold ment, vent; cbn; lra.
Qed.
Print Assumptions C57_case_9.

Theorem C57_case_10 : forall x0 x1, exists J,
  broyden1965_case10_jac [x0; x1] = Ret J /\ is_mat 2 J /\
  forall i j, (i < 2)%nat -> (j < 2)%nat ->
  partial_derivative broyden1965_case10 [x0; x1] i j (ment J i j).
Proof.
  intros x0 x1; eexists; split; [reflexivity|]; split.
  { split; [reflexivity|]; intros [|[|k]] Hk; try reflexivity; lia. }
  intros i [|[|j]] Hi Hj; [| |lia];
    (split; [intros u; eexists; split; [reflexivity|exact Hi]|]);
    destruct i as [|[|i]]; try lia.
  - apply (cubic _ _ _ (-13 + ((- x1 + 5) * x1 - 2) * x1) 1 0 0); [intros u|]; unfold ment, vent; cbn; lra.
  - apply (cubic _ _ _ (-29 + ((x1 + 1) * x1 - 14) * x1) 1 0 0); [intros u|]; unfold ment, vent; cbn; lra.
  - apply (cubic _ _ _ (-13 + x0) (-2) 5 (-1)); [intros u|]; unfold ment, vent, nsq; cbn; lra.
  - apply (cubic _ _ _ (-29 + x0) (-14) 1 1); [intros u|]; unfold ment, vent, nsq; cbn; lra.
Qed.
Print Assumptions C57_case_10.

Lemma npow_pow x : forall n, npow x n = x ^ n.
Proof.
  induction n as [|[|n] IH]; [reflexivity|cbn; lra|].
  change (npow x (S (S n))) with (x * npow x (S n)); rewrite IH; reflexivity.
Qed.

Theorem C57_polynomials : forall a,
  (exists J, dsquare [a] = Ret J /\ is_mat 1 J /\ partial_derivative square2 [a] 0 0 (ment J 0 0)) /\
  (exists J, root_with_high_derivative_jac [a] = Ret J /\ is_mat 1 J /\
     partial_derivative root_with_high_derivative [a] 0 0 (ment J 0 0)).
Proof.
  intros a; split; eexists; (split; [reflexivity|]); (split;
    [split; [reflexivity|]; intros [|k] Hk; [reflexivity|lia]|]);
    (split; [intros u; eexists; split; [reflexivity|cbn; lia]|]).
  - apply (cubic _ _ _ (-2) 0 1 0); [intros u|]; unfold ment, vent; cbn; lra.
  - apply (derivable_pt_lim_ext (fun u => 1000000000 * u ^ 9 - 1)).
    + intros u; change (1000000000 * u ^ 9 - 1 = 1000000000 * npow u 9 - 1); rewrite npow_pow; reflexivity.
    + change (derivable_pt_lim (fun u => 1000000000 * u ^ 9 - 1) a (9000000000 * npow a 8)).
      rewrite npow_pow.
      apply (dpl_eq _ _ _ (1000000000 * (INR 9 * a ^ 8) - 0)).
      * apply (derivable_pt_lim_minus (fun u => 1000000000 * u ^ 9) (fun _ => 1));
          [|apply derivable_pt_lim_const].
        apply (derivable_pt_lim_scal (fun u => u ^ 9)), derivable_pt_lim_pow.
      * change (INR 9) with (INR (4 + 5)); rewrite plus_INR; cbn [INR]; lra.
Qed.
Print Assumptions C57_polynomials.

(** A concrete entry: case 10 at its starting point (15, -2). *)
Example C57_case : exists J, broyden1965_case10_jac [15; -2] = Ret J /\ ment J 0 1 = -34 /\ ment J 1 1 = -6.
Proof. eexists; split; [reflexivity|]; unfold ment, nsq; cbn; lra. Qed.
Example C57_case_5to8 : exists J, broyden1965_case6_jac [-1; -1; -1] = Ret J /\
  ment J 0 0 = -4 /\ ment J 1 0 = -4 /\ ment J 1 1 = -2 /\ ment J 2 2 = -2 /\ ment J 0 2 = 0.
Proof. eexists; split; [reflexivity|]; unfold ment, alpha6, ndec; cbn; lra. Qed.

(** ** C61: the documented solutions are roots *)
Definition is_root (f : vec R -> outcome (vec R)) (x : vec R) : Prop :=
  exists out, f x = Ret out /\ length out = length x /\
  forall i, (i < length x)%nat -> vent out i = 0.

Lemma solution_step alpha a b c n :
  (forall y, y <= 0 -> - (3 + alpha * (a - sqrt (b - c * y))) * (a - sqrt (b - c * y)) + 2 * y - 1 = 0) ->
  (forall y, y <= 0 -> a - sqrt (b - c * y) <= 0) ->
  let x := solution_from sqrt a b c n in
  length x = n /\ forall k, (k < n)%nat -> vent x k <= 0 /\ increment alpha 1 x k = 0.
Proof.
  intros E P; cbn zeta; induction n as [|n IH].
  - split; [reflexivity|]; intros; lia.
  - destruct n as [|n].
    + split; [reflexivity|]; intros [|k] Hk; [|lia].
      pose proof (E 0 ltac:(lra)) as E0; pose proof (P 0 ltac:(lra)) as P0.
      replace (b - c * 0) with b in E0, P0 by lra.
      split; [exact P0|]; unfold increment; cbn.
      change (- (3 + alpha * (a - sqrt b)) * (a - sqrt b) + 0 - 1 = 0); lra.
    + set (rest := solution_from sqrt a b c (S n)) in *.
      change (solution_from sqrt a b c (S (S n))) with ((a - sqrt (b - c * hd 0 rest)) :: rest).
      destruct IH as [L K]; split; [cbn [length]; lia|].
      destruct rest as [|r0 rest']; [discriminate|].
      intros [|k] Hk.
      * pose proof (proj1 (K 0%nat ltac:(lia))) as R0; cbn in R0.
        split; [exact (P r0 R0)|].
        unfold increment; cbn [length] in *; destruct (Nat.ltb_spec 1 (S (S (length rest')))); [|lia].
        pose proof (E r0 R0) as Q; unfold vent; cbn [nth hd]; lra.
      * destruct (K k ltac:(lia)) as [K1 K2]; split; [exact K1|].
        rewrite <- K2; unfold increment; cbn [length].
        change (vent (?a :: ?l) (S k)) with (vent l k).
        destruct (Nat.ltb_spec (S (S k)) (S (S (length rest')))), (Nat.ltb_spec (S k) (S (length rest')));
          try lia; reflexivity.
Qed.

Lemma solution_root alpha a b c n : (2 <= n)%nat ->
  (forall y, y <= 0 -> - (3 + alpha * (a - sqrt (b - c * y))) * (a - sqrt (b - c * y)) + 2 * y - 1 = 0) ->
  (forall y, y <= 0 -> a - sqrt (b - c * y) <= 0) ->
  is_root (fun x => broyden1965_cases5to8 x alpha 1) (solution_from sqrt a b c n).
Proof.
  intros Hn E P; destruct (solution_step alpha a b c n E P) as [L K].
  set (x := solution_from sqrt a b c n) in *.
  destruct (cases5to8_entries alpha 1 x) as (out & EO & LO & V); [lia|].
  exists out; split; [exact EO|]; split; [exact LO|].
  intros i Hi; rewrite (V i Hi); apply rsum_zero; intros k Hk; apply K; lia.
Qed.

Lemma root_of_quadratic alpha a b c : alpha <> 0 -> a * alpha = -3 / 2 -> c * alpha = -2 ->
  (b - a * a) * alpha = -1 -> 0 <= b -> 0 <= c -> 0 < a -> a * a <= b ->
  (forall y, y <= 0 -> - (3 + alpha * (a - sqrt (b - c * y))) * (a - sqrt (b - c * y)) + 2 * y - 1 = 0) /\
  (forall y, y <= 0 -> a - sqrt (b - c * y) <= 0).
Proof.
  intros N A C B B0 C0 A0 AB; split; intros y Hy.
  - set (s := sqrt (b - c * y)).
    assert (S2 : s * s = b - c * y) by (apply sqrt_sqrt; nra).
    apply (Rmult_eq_reg_l 1); [|lra].
    replace (- (3 + alpha * (a - s)) * (a - s))
      with (-3 * a + 3 * s - alpha * a * a + 2 * (a * alpha) * s - alpha * (s * s)) by ring.
    rewrite S2, A; nra.
  - assert (a <= sqrt (b - c * y)); [|lra].
    rewrite <- (sqrt_square a) by lra; apply sqrt_le_1_alt; nra.
Qed.

Theorem C61_solutions_are_roots :
  is_root broyden1965_case5 (solution_case5 sqrt) /\
  is_root broyden1965_case6 (solution_case6 sqrt) /\
  is_root broyden1965_case7 (solution_case7 sqrt) /\
  is_root broyden1965_case8 (solution_case8 sqrt) /\
  is_root broyden1965_case9 solution_case9 /\
  is_root broyden1965_case10 solution_case10.
Proof.
  assert (A5 : (alpha5 : R) = - (1 / 10)) by reflexivity.
  assert (A6 : (alpha6 : R) = - (5 / 10)) by reflexivity.
  destruct (root_of_quadratic alpha5 15 235 20) as [E5 P5]; try (rewrite A5); try lra.
  destruct (root_of_quadratic alpha6 3 11 4) as [E6 P6]; try (rewrite A6); try lra.
  repeat match goal with |- _ /\ _ => split end.
  - apply (solution_root alpha5 15 235 20 5 ltac:(lia) E5 P5).
  - apply (solution_root alpha6 3 11 4 5 ltac:(lia) E6 P6).
  - apply (solution_root alpha6 3 11 4 10 ltac:(lia) E6 P6).
  - apply (solution_root alpha6 3 11 4 20 ltac:(lia) E6 P6).
  - eexists; split; [reflexivity|]; split; [reflexivity|].
    intros [|[|i]] Hi; [| |cbn in Hi; lia]; unfold vent, nsq; cbn; lra.
  - eexists; split; [reflexivity|]; split; [reflexivity|].
    intros [|[|i]] Hi; [| |cbn in Hi; lia]; unfold vent; cbn; lra.
Qed.
Print Assumptions C61_solutions_are_roots.

(** The text of broyden1965.rs:46-52: the jacobian of case 10 is singular exactly
    when [-3 x1^2 + 4 x1 + 6 = 0]. *)
Theorem C61_case_10_singular : forall x0 x1, exists J,
  broyden1965_case10_jac [x0; x1] = Ret J /\
  (ment J 0 0 * ment J 1 1 - ment J 0 1 * ment J 1 0 = 0 <-> -3 * (x1 * x1) + 4 * x1 + 6 = 0).
Proof.
  intros x0 x1; eexists; split; [reflexivity|]; unfold ment, nsq; cbn; split; intros; lra.
Qed.
Print Assumptions C61_case_10_singular.
