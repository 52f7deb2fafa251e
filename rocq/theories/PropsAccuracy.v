(** What an accepted point guarantees about the equations, as real numbers, and
    about the distance to a root (C87). *)
From Coq Require Import Reals Lra Psatz.
From Flocq Require Import Core BinarySingleNaN Plus_error Relative.
From Verif Require Import Base Num Linalg Residuals Iteratives UserModel Jacobian Solver Spec
  F64 F64Facts F64Arith LimitFacts Samples ResidualFacts VerdictFacts PropsNorm
  PropsSim PropsPanic PropsDefault.
Open Scope R_scope.

Notation u53 := (bpow radix2 (-53)).
Notation fmt := (generic_format radix2 (FLT_exp (-1074) 53)).

Lemma u53_small : 0 < u53 <= / 1024.
Proof.
  split; [apply bpow_gt_0|].
  change (/ 1024) with (bpow radix2 (-10)); apply bpow_le; lia.
Qed.
Lemma two_u53 : bpow radix2 (-52) = 2 * u53 /\ bpow radix2 (-50) = 8 * u53.
Proof.
  split; [change 2 with (bpow radix2 1)|change 8 with (bpow radix2 3)];
    now rewrite <- bpow_plus.
Qed.
Lemma u_ro_53 : u_ro radix2 53 = u53.
Proof.
  unfold u_ro; change (/ 2) with (bpow radix2 (-1)); now rewrite <- bpow_plus.
Qed.

(** Rounding does not bring a number below a normal double it exceeds by more
    than one part in 2^52. *)
Lemma rnd_below : forall t a, fmt t -> bpow radix2 (-1022) <= t -> rnd a <= t ->
  a <= t * (1 + 2 * u53).
Proof.
  intros t a Ft Ht H; apply Rnot_lt_le; intros Hc.
  assert (P : 0 < bpow radix2 (-1022)) by apply bpow_gt_0.
  assert (U := ulp_FLT_le radix2 (-1074) 53 t); rewrite Rabs_pos_eq in U by lra.
  specialize (U Ht); change (1 - 53)%Z with (-52)%Z in U; rewrite (proj1 two_u53) in U.
  assert (Fs : fmt (succ radix2 (FLT_exp (-1074) 53) t))
    by (apply generic_format_succ; auto with typeclass_instances).
  assert (Q : succ radix2 (FLT_exp (-1074) 53) t <= rnd a).
  { rewrite <- (rnd_format _ Fs); apply rnd_le; rewrite succ_eq_pos by lra; lra. }
  assert (G := succ_gt_id radix2 (FLT_exp (-1074) 53) t); lra.
Qed.

(** The rounded sum of two doubles and the sum. *)
Lemma sum_near : forall x y, fmt x -> fmt y ->
  Rabs (x + y) <= Rabs (rnd (x + y)) * (1 + u53) /\
  Rabs (rnd (x + y)) <= Rabs (x + y) * (1 + 2 * u53).
Proof.
  intros x y Fx Fy.
  destruct (FLT_plus_error_N_round_ex radix2 (-1074) 53 (fun z => negb (Z.even z)) x y Fx Fy)
    as (e & He & E).
  rewrite u_ro_53 in He; change (x + y = rnd (x + y) * (1 + e)) in E.
  assert (P := u53_small); apply Rabs_le_inv in He.
  set (r := rnd (x + y)) in *; rewrite E, Rabs_mult, (Rabs_pos_eq (1 + e)) by lra.
  assert (Q := Rabs_pos r); split; [nra|].
  assert (1 <= (1 + e) * (1 + 2 * u53)) by nra.
  rewrite Rmult_assoc; nra.
Qed.

Lemma rnd_error : forall a, Rabs (rnd a - a) <= Rabs a * u53 + bpow radix2 (-1075).
Proof.
  intros a.
  destruct (relative_error_N_FLT'_ex radix2 (-1074) 53 eq_refl (fun z => negb (Z.even z)) a)
    as (e & eta & He & Ht & _ & E).
  change (rnd a = a * (1 + e) + eta) in E.
  rewrite u_ro_53 in He; assert (P := u53_small).
  assert (He' : Rabs e <= u53).
  { eapply Rle_trans; [exact He|]; unfold Rdiv.
    assert (/ (1 + u53) <= 1) by (rewrite <- Rinv_1 at 2; apply Rinv_le_contravar; lra).
    assert (0 < / (1 + u53)) by (apply Rinv_0_lt_compat; lra).
    nra. }
  assert (E2 : / 2 * bpow radix2 (-1074) = bpow radix2 (-1075)).
  { change (/ 2) with (bpow radix2 (-1)); now rewrite <- bpow_plus. }
  rewrite E2 in Ht; replace (rnd a - a) with (a * e + eta) by lra.
  eapply Rle_trans; [apply Rabs_triang|]; rewrite Rabs_mult.
  assert (Q := Rabs_pos a); nra.
Qed.

Lemma rnd_near : forall a, Rabs (rnd a) <= Rabs a * (1 + u53) + bpow radix2 (-1075).
Proof.
  intros a.
  destruct (relative_error_N_FLT'_ex radix2 (-1074) 53 eq_refl (fun z => negb (Z.even z)) a)
    as (e & eta & He & Ht & _ & E).
  change (rnd a = a * (1 + e) + eta) in E.
  rewrite u_ro_53 in He; assert (P := u53_small).
  assert (He' : Rabs e <= u53).
  { eapply Rle_trans; [exact He|]; unfold Rdiv.
    assert (/ (1 + u53) <= 1) by (rewrite <- Rinv_1 at 2; apply Rinv_le_contravar; lra).
    assert (0 < / (1 + u53)) by (apply Rinv_0_lt_compat; lra).
    nra. }
  assert (E2 : / 2 * bpow radix2 (-1074) = bpow radix2 (-1075)).
  { change (/ 2) with (bpow radix2 (-1)); now rewrite <- bpow_plus. }
  rewrite E2 in Ht; rewrite E.
  eapply Rle_trans; [apply Rabs_triang|]; rewrite Rabs_mult.
  assert (Rabs (1 + e) <= 1 + u53).
  { apply Rabs_le_inv in He'; rewrite Rabs_pos_eq; lra. }
  assert (Q := Rabs_pos a); nra.
Qed.

(** The size, as a real number, against which the two sides of an equation are
    compared: residuals/mod.rs:47-86 (the documented formulas), with half the
    smallest positive double added for [Rel]. *)
Definition scale (m : norm_method) (x y : R) : R :=
  match m with
  | Abs => 1
  | Rel => Rabs (x + y) / 2 + bpow radix2 (-1075)
  | Adapt => 1 + Rabs (x + y) / 2
  end.

(** A residual which is a number of finite size comes from finite sides. *)
Lemma finite_sides : forall (x y : f64) m,
  isnan (normalization x y m) = false -> Rabs (key (normalization x y m)) < big ->
  isfin x = true /\ isfin y = true.
Proof.
  intros x y m N B; assert (P := big_pos).
  assert (K : forall s, Rabs (key (B754_infinity s)) = big).
  { intros [|]; cbn [key]; fold big; [rewrite Rabs_Ropp|]; apply Rabs_pos_eq; lra. }
  destruct m, x as [sx|sx| |sx mx ex Hx], y as [sy|sy| |sy my ey Hy];
    try (split; reflexivity); exfalso;
    try discriminate N; try (destruct sx, sy; discriminate N);
    try (destruct sx; discriminate N); try (destruct sy; discriminate N);
    cbn [normalization nsub Num_f64 Bminus] in B;
    try (rewrite K in B; lra);
    destruct sx, sy; first [discriminate N|cbn [Bool.eqb xorb negb] in B; rewrite K in B; lra].
Qed.

Lemma fmt_key : forall x : f64, isfin x = true -> fmt (key x).
Proof. exact format64. Qed.

Lemma sat_inside : forall r, Rabs (sat r) < big -> sat r = r.
Proof.
  intros r H; apply sat_id; destruct (Rle_or_lt (Rabs r) big) as [C|C]; [exact C|].
  exfalso; assert (BP := big_pos); unfold Rabs in C; destruct (Rcase_abs r);
    [rewrite sat_nbig, Rabs_Ropp, Rabs_pos_eq in H by lra
    |rewrite sat_big, Rabs_pos_eq in H by lra]; lra.
Qed.

Lemma quotient_below : forall d s t : f64,
  isfin t = true -> bpow radix2 (-1022) <= key t -> isfin s = true -> 0 <= key s ->
  isnan (ndiv d s) = false -> Rabs (key (ndiv d s)) <= key t ->
  isfin d = true /\ 0 < key s /\ Rabs (key d) <= key t * (1 + 2 * u53) * key s.
Proof.
  intros d s t Ft Ht Fs Ps N L.
  assert (Bt := key_bound _ Ft); fold big in Bt; assert (P := big_pos).
  assert (K : forall b, Rabs (key (B754_infinity b)) = big).
  { intros [|]; cbn [key]; fold big; [rewrite Rabs_Ropp|]; apply Rabs_pos_eq; lra. }
  assert (Fd : isfin d = true).
  { destruct d as [sd|sd| |sd md ed Hd]; [reflexivity| |discriminate N|reflexivity]; exfalso.
    destruct s as [ss|ss| |ss ms es Hs]; [|discriminate Fs|discriminate Fs|];
      cbn [ndiv Num_f64 Bdiv] in L; rewrite K in L; lra. }
  assert (Zs : key s <> 0).
  { intros Z; destruct s as [ss|ss| |ss ms es Hs]; [|discriminate Fs|discriminate Fs|].
    - destruct d as [sd|sd| |sd md ed Hd]; [discriminate N|discriminate Fd|discriminate N|].
      cbn [ndiv Num_f64 Bdiv] in L; rewrite K in L; lra.
    - cbn [key B2R] in Z; apply eq_0_F2R in Z; destruct ss; discriminate Z. }
  split; [exact Fd|]; split; [lra|].
  destruct (div_fin d s Fd Fs Zs) as (_ & Kq); rewrite Kq in L.
  rewrite sat_inside in L by lra; rewrite rnd_abs in L.
  apply rnd_below in L; [|apply fmt_key; exact Ft|exact Ht].
  unfold Rdiv in L; rewrite Rabs_mult, Rabs_inv, (Rabs_pos_eq (key s)) in L by lra.
  apply Rmult_le_compat_r with (r := key s) in L; [|lra].
  rewrite Rmult_assoc, Rinv_l, Rmult_1_r in L by exact Zs; exact L.
Qed.

Lemma half_bound : forall u e A B h, 0 < u <= / 1024 -> 0 <= A -> B <= A * (1 + 2 * u) ->
  h <= B / 2 * (1 + u) + e -> h <= A / 2 * (1 + 7 / 2 * u) + e.
Proof.
  intros u e A B h Hu HA HB Hh.
  assert (Q : B / 2 * (1 + u) <= A / 2 * ((1 + 2 * u) * (1 + u))).
  { replace (A / 2 * ((1 + 2 * u) * (1 + u))) with (A * (1 + 2 * u) / 2 * (1 + u)) by field.
    apply Rmult_le_compat_r; lra. }
  assert (Q2 : (1 + 2 * u) * (1 + u) <= 1 + 7 / 2 * u) by nra.
  assert (Q3 : A / 2 * ((1 + 2 * u) * (1 + u)) <= A / 2 * (1 + 7 / 2 * u))
    by (apply Rmult_le_compat_l; lra).
  lra.
Qed.
Lemma one_more_bound : forall u A h s, 0 < u <= / 1024 -> 0 <= A ->
  h <= A * (1 + 7 / 2 * u) + u / 1024 -> s <= (1 + h) * (1 + u) + u / 1024 ->
  s <= (1 + A) * (1 + 19 / 4 * u).
Proof.
  intros u A h s Hu HA Hh Hs.
  assert (Q : (1 + h) * (1 + u) <= (1 + A * (1 + 7 / 2 * u) + u / 1024) * (1 + u))
    by (apply Rmult_le_compat_r; lra).
  assert (Q2 : (1 + 7 / 2 * u) * (1 + u) <= 1 + 19 / 4 * u) by nra.
  assert (Q3 : A * ((1 + 7 / 2 * u) * (1 + u)) <= A * (1 + 19 / 4 * u))
    by (apply Rmult_le_compat_l; lra).
  assert (Q4 : (1 + u / 1024) * (1 + u) + u / 1024 <= 1 + 19 / 4 * u) by nra.
  nra.
Qed.
Lemma chain_bound : forall u t S C D s k, 0 < u <= / 1024 -> 0 < t -> 0 < S -> 0 <= k <= 19 / 4 ->
  D <= C * (1 + u) -> C <= t * (1 + 2 * u) * s -> s <= S * (1 + k * u) ->
  D <= t * (1 + 8 * u) * S.
Proof.
  intros u t S C D s k Hu Ht HS Hk HD HC Hs.
  assert (Q1 : C * (1 + u) <= t * (1 + 2 * u) * s * (1 + u)) by (apply Rmult_le_compat_r; lra).
  assert (Q2 : t * (1 + 2 * u) * (1 + u) * s <= t * (1 + 2 * u) * (1 + u) * (S * (1 + k * u))).
  { apply Rmult_le_compat_l; [|exact Hs]; apply Rmult_le_pos; [apply Rmult_le_pos|]; lra. }
  assert (Q3 : (1 + 2 * u) * (1 + u) * (1 + k * u) <= 1 + 8 * u).
  { apply Rle_trans with ((1 + 2 * u) * (1 + u) * (1 + 19 / 4 * u)).
    - apply Rmult_le_compat_l; [apply Rmult_le_pos; lra|nra].
    - assert ((1 + 2 * u) * (1 + u) <= 1 + 25 / 8 * u) by nra.
      apply Rle_trans with ((1 + 25 / 8 * u) * (1 + 19 / 4 * u)); [|nra].
      apply Rmult_le_compat_r; lra. }
  assert (Q4 : 0 < t * S) by (apply Rmult_lt_0_compat; lra).
  assert (Q5 := Rmult_le_compat_l _ _ _ (Rlt_le _ _ Q4) Q3).
  lra.
Qed.

Lemma within : forall (x y t : f64) m,
  isfin t = true -> bpow radix2 (-1022) <= key t ->
  (m <> Abs -> isfin (nadd x y) = true) ->
  isnan (normalization x y m) = false ->
  nleb (nabs (normalization x y m)) t = true ->
  isfin x = true /\ isfin y = true /\
  Rabs (key x - key y) <= key t * (1 + bpow radix2 (-50)) * scale m (key x) (key y).
Proof.
  intros x y t m Ft Ht Fs N L.
  apply leb_true_inv in L; destruct L as (_ & _ & L); rewrite key_abs in L.
  assert (Bt := key_bound _ Ft); fold big in Bt.
  assert (Pt : 0 < key t).
  { assert (0 < bpow radix2 (-1022)) by apply bpow_gt_0; lra. }
  destruct (finite_sides x y m N ltac:(lra)) as (Fx & Fy).
  split; [exact Fx|]; split; [exact Fy|].
  destruct (sub_fin x y Fx Fy) as (Nd & Kd).
  assert (US := u53_small); rewrite (proj2 two_u53).
  assert (Tb := fmt_key t Ft).
  destruct (sum_near (key x) (- key y) (fmt_key _ Fx) (generic_format_opp _ _ _ (fmt_key _ Fy)))
    as (SN & _).
  fold (key x - key y) in SN.
  assert (SP := proj2 (sum_near (key x) (key y) (fmt_key _ Fx) (fmt_key _ Fy))).
  assert (T5 : bpow radix2 (-1075) <= u53) by (apply bpow_le; lia).
  assert (T6 : 0 < bpow radix2 (-1075)) by apply bpow_gt_0.
  destruct m.
  - change (normalization x y Abs) with (nsub x y) in *.
    rewrite Kd in L; rewrite sat_inside in L by lra.
    rewrite rnd_abs in L; apply rnd_below in L; [|exact Tb|exact Ht].
    cbn [scale]; nra.
  - change (normalization x y Rel) with (ndiv (nsub x y) (ndiv (nabs (nadd x y)) n2)) in *.
    destruct (half_sum x y Fx Fy (Fs ltac:(discriminate))) as (Fh & Kh & (Ph & _) & _).
    set (h := ndiv (nabs (nadd x y)) n2) in *.
    destruct (quotient_below _ h t Ft Ht Fh Ph N L) as (Fd & Zh & Q).
    assert (Bd := key_bound _ Fd); fold big in Bd.
    rewrite Kd, sat_inside in Q by (rewrite <- Kd; apply Rabs_lt; lra).
    assert (H2 := rnd_near (Rabs (rnd (key x + key y)) / 2)); rewrite <- Kh in H2.
    rewrite (Rabs_pos_eq (key h)), (Rabs_pos_eq (Rabs (rnd (key x + key y)) / 2)) in H2
      by (try exact Ph; assert (R := Rabs_pos (rnd (key x + key y))); lra).
    cbn [scale].
    set (D := Rabs (key x - key y)) in *; set (A := Rabs (key x + key y)) in *.
    assert (PA : 0 <= A) by apply Rabs_pos.
    set (B := Rabs (rnd (key x + key y))) in *; set (C := Rabs (rnd (key x - key y))) in *.
    assert (H3 := half_bound u53 _ A B (key h) US PA SP H2).
    set (S := A / 2 + bpow radix2 (-1075)).
    apply (chain_bound u53 (key t) S C D (key h) (7 / 2)); try lra; unfold S; [lra|nra].
  - change (normalization x y Adapt)
      with (ndiv (nsub x y) (nadd n1 (ndiv (nabs (nadd x y)) n2))) in *.
    destruct (half_sum x y Fx Fy (Fs ltac:(discriminate))) as (Fh & Kh & (Ph & _) & Uh).
    set (h := ndiv (nabs (nadd x y)) n2) in *.
    destruct (add_fin n1 h one_fin Fh) as (Ns & Ks); rewrite key_n1 in Ks.
    assert (Bg : rnd (1 + key h) < big).
    { eapply Rle_lt_trans; [apply (rnd_le _ (bpow radix2 1023 + bpow radix2 1022))|].
      - assert (1 <= bpow radix2 1022) by (change 1 with (bpow radix2 0); apply bpow_le; lia); lra.
      - rewrite rnd_format.
        + replace big with (bpow radix2 1022 * 4).
          2: { unfold big; change 4 with (bpow radix2 2); now rewrite <- bpow_plus. }
          replace (bpow radix2 1023) with (bpow radix2 1022 * 2).
          2: { change 2 with (bpow radix2 1); now rewrite <- bpow_plus. }
          assert (0 < bpow radix2 1022) by apply bpow_gt_0; lra.
        + replace (bpow radix2 1023 + bpow radix2 1022) with (F2R (Float radix2 3 1022)).
          * apply generic_format_FLT; exists (Float radix2 3 1022); cbn; [reflexivity|lia|lia].
          * unfold F2R; cbn [Fnum Fexp].
            replace (bpow radix2 1023) with (bpow radix2 1022 * 2); [lra|].
            change 2 with (bpow radix2 1); now rewrite <- bpow_plus. }
    assert (P1 : 0 <= rnd (1 + key h)) by (apply rnd_ge0; lra).
    rewrite sat_id in Ks by (rewrite Rabs_pos_eq; lra).
    set (s := nadd n1 h) in *.
    assert (Fs' : isfin s = true).
    { apply key_finite; [exact Ns|]; rewrite Ks, Rabs_pos_eq; lra. }
    destruct (quotient_below _ s t Ft Ht Fs' ltac:(lra) N L) as (Fd & Zs & Q).
    assert (Bd := key_bound _ Fd); fold big in Bd.
    rewrite Kd, sat_inside in Q by (rewrite <- Kd; apply Rabs_lt; lra).
    assert (H2 := rnd_near (Rabs (rnd (key x + key y)) / 2)); rewrite <- Kh in H2.
    rewrite (Rabs_pos_eq (key h)), (Rabs_pos_eq (Rabs (rnd (key x + key y)) / 2)) in H2
      by (try exact Ph; assert (R := Rabs_pos (rnd (key x + key y))); lra).
    assert (H3 := rnd_near (1 + key h)); rewrite <- Ks in H3.
    rewrite (Rabs_pos_eq (key s)), (Rabs_pos_eq (1 + key h)) in H3 by lra.
    cbn [scale].
    set (D := Rabs (key x - key y)) in *; set (A := Rabs (key x + key y)) in *.
    assert (PA : 0 <= A) by apply Rabs_pos.
    set (B := Rabs (rnd (key x + key y))) in *; set (C := Rabs (rnd (key x - key y))) in *.
    set (S := 1 + A / 2).
    assert (T7 : bpow radix2 (-1075) <= u53 / 1024).
    { replace (u53 / 1024) with (bpow radix2 (-63)); [apply bpow_le; lia|].
      change (/ 1024) with (bpow radix2 (-10)); unfold Rdiv.
      change (/ 1024) with (bpow radix2 (-10)); now rewrite <- bpow_plus. }
    assert (H4 := half_bound u53 _ A B (key h) US PA SP H2).
    assert (H5 := one_more_bound u53 (A / 2) (key h) (key s) US ltac:(lra) ltac:(lra) ltac:(lra)).
    apply (chain_bound u53 (key t) S C D (key s) (19 / 4)); try lra; unfold S; lra.
Qed.

(** The two sides of an equation judged by [m] agree to the tolerance, as real
    numbers. *)
Definition agree (tol : f64) (m : norm_method) (x y : f64) : Prop :=
  isfin x = true /\ isfin y = true /\
  Rabs (key x - key y) <= key tol * (1 + bpow radix2 (-50)) * scale m (key x) (key y).

(** The claim without condition on the sums of the two sides. *)
Definition C87_unconditional : Prop :=
  forall (IF : Inverter f64) St EI EU (M : Model f64 St EI EU) rf s rf' s' r,
  let tol := sp_tolerance (rf_parameters rf) in
  let methods := stopping_criterias (rf_residuals_config rf) in
  solve M rf s = Ret (rf', s', r) -> r = Ok tt \/ r = Err FinalEvaluationError ->
  isfin tol = true -> bpow radix2 (-1022) <= key tol ->
  exists v, get_residuals M s' = Ret v /\
  ((forall e, stopping_residual methods v e -> isnan e = false) ->
   forall i m x y, equation methods v i m x y -> agree tol m x y).

(** *** C87 *)

Theorem C87_sides_agree :
  forall (IF : Inverter f64) St EI EU (M : Model f64 St EI EU) rf s rf' s' r,
  let tol := sp_tolerance (rf_parameters rf) in
  let methods := stopping_criterias (rf_residuals_config rf) in
  solve M rf s = Ret (rf', s', r) -> r = Ok tt \/ r = Err FinalEvaluationError ->
  isfin tol = true -> bpow radix2 (-1022) <= key tol ->
  exists v, get_residuals M s' = Ret v /\ described methods v /\
  ((forall e, stopping_residual methods v e -> isnan e = false) ->
   forall i m x y, equation methods v i m x y ->
   (m <> Abs -> isfin (nadd x y) = true) -> agree tol m x y).
Proof.
  intros IF St EI EU M rf s rf' s' r tol methods H V Ft Ht.
  apply verdict_state in H; [|destruct V as [->| ->]; [left|right; right]; reflexivity].
  destruct H as (v & e & Hv & He & _ & _ & _ & _ & Hr); exists v; split; [exact Hv|].
  split; [apply stopping_vector in He; apply He|].
  intros NN i m x y EQ FS.
  apply (stopping_max _ _ _ tol) in He; destruct He as (_ & He).
  assert (SR : stopping_residual methods v (nabs (normalization x y m))).
  { exists i, m, x, y; split; [exact EQ|destruct m; reflexivity]. }
  assert (L : nleb (nabs (normalization x y m)) tol = true).
  { apply He; [apply fin_not_nan; exact Ft|exact NN| |exact SR].
    fold tol in Hr; destruct (ngtb (amax e) tol); [|reflexivity].
    destruct V as [V|V]; rewrite V in Hr; discriminate Hr. }
  assert (N := NN _ SR); rewrite abs_nan in N.
  exact (within x y tol m Ft Ht FS N L).
Qed.

(** A model with one equation between two constants. *)
Definition two_sides (l r : f64) : Model f64 (vec f64) string string :=
  mkModel (fun _ => 1%nat) (fun _ x => x) (fun x => x) (fun x => Ret (x, Ok tt))
    (fun _ => residuals_values_new [l] [r]) (fun _ => false)
    (fun x => Ret (x, Ok (mkJacobianValues [[]] [[]]))) (fun _ => []) (fun s _ => s)
    (fun e => e) (fun e => e).
(** 3 * 2^1022 and 2^1023: their sum overflows. *)
Definition wide_l : f64 := @B754_finite 53 1024 false 6755399441055744 971 eq_refl.
Definition wide_r : f64 := @B754_finite 53 1024 false 4503599627370496 971 eq_refl.
Definition one_equation (m : norm_method) : rootfinder f64 :=
  sample_rf (params6 1 50 NewtonRaphson false) [Fz 1] (fd_its 1) (mkResidualsConfig [m] [m]).

Lemma power_key : forall e (H : SpecFloat.bounded 53 1024 4503599627370496 e = true),
  key (@B754_finite 53 1024 false 4503599627370496 e H) = bpow radix2 (52 + e).
Proof.
  intros e H; cbn [key B2R cond_Zopp]; unfold F2R; cbn [Fnum Fexp].
  change (IZR 4503599627370496) with (IZR (radix2 ^ 52)); rewrite IZR_Zpower by lia.
  now rewrite <- bpow_plus.
Qed.
Lemma tolerance_6 : isfin (ndec 1 1000000 : f64) = true /\
  bpow radix2 (-1022) <= key (ndec 1 1000000 : f64) <= / 8.
Proof.
  assert (T : isfin (ndec 1 1000000 : f64) = true) by (vm_compute; reflexivity).
  split; [exact T|].
  assert (A : nleb (@B754_finite 53 1024 false 4503599627370496 (-1074) eq_refl : f64)
                (ndec 1 1000000) = true) by (vm_compute; reflexivity).
  assert (B : nleb (ndec 1 1000000 : f64)
                (@B754_finite 53 1024 false 4503599627370496 (-55) eq_refl) = true)
    by (vm_compute; reflexivity).
  apply leb_true_inv in A; destruct A as (_ & _ & A); rewrite power_key in A.
  apply leb_true_inv in B; destruct B as (_ & _ & B); rewrite power_key in B.
  split; [exact A|exact B].
Qed.

Lemma wide_keys : key wide_l = 3 * bpow radix2 1022 /\ key wide_r = 2 * bpow radix2 1022.
Proof.
  assert (E : bpow radix2 971 * IZR 2251799813685248 = bpow radix2 1022).
  { change (IZR 2251799813685248) with (IZR (radix2 ^ 51)); rewrite IZR_Zpower by lia.
    now rewrite <- bpow_plus. }
  split; unfold wide_l, wide_r; cbn [key B2R cond_Zopp]; unfold F2R; cbn [Fnum Fexp];
    rewrite <- E; [change 6755399441055744%Z with (3 * 2251799813685248)%Z
                  |change 4503599627370496%Z with (2 * 2251799813685248)%Z];
    rewrite mult_IZR; ring.
Qed.

(** The sum of the sides overflows, the residual is zero: the two sides differ
    by 2^1022 and the solve succeeds. *)
Theorem C87_overflow_refuted : forall m, m = Rel \/ m = Adapt ->
  (exists rf' s', solve (two_sides wide_l wide_r) (one_equation m) [] = Ret (rf', s', Ok tt)) /\
  isfin wide_l = true /\ isfin wide_r = true /\ key wide_l - key wide_r = bpow radix2 1022 /\
  isnan (normalization wide_l wide_r m) = false.
Proof.
  intros m Hm; split; [|split; [reflexivity|split; [reflexivity|split]]].
  - assert (Q : check_run (solve (two_sides wide_l wide_r) (one_equation m) [])
              (fun _ _ r => is_ok r) = true)
      by (destruct Hm as [->| ->]; vm_compute; reflexivity).
    apply check_run_true in Q; destruct Q as (rf' & s' & r & E & Q).
    destruct r as [[]|e]; [|discriminate Q]; eauto.
  - destruct wide_keys as (-> & ->); lra.
  - destruct Hm as [->| ->]; vm_compute; reflexivity.
Qed.

Theorem C87_unconditional_refuted : ~ C87_unconditional.
Proof.
  intros H; destruct (C87_overflow_refuted Adapt (or_intror eq_refl)) as ((rf' & s' & E) & _ & _ & K & N).
  destruct tolerance_6 as (T1 & T2 & T3).
  destruct (H _ _ _ _ _ _ _ _ _ _ E (or_introl eq_refl) T1 T2) as (v & Hv & A).
  cbn [get_residuals two_sides residuals_values_new length Nat.eqb] in Hv.
  assert (Ev : v = mkResidualsValues [wide_l] [wide_r]) by (injection Hv as <-; reflexivity).
  subst v; clear Hv.
  assert (EQ : equation (stopping_criterias (rf_residuals_config (one_equation Adapt)))
                 (mkResidualsValues [wide_l] [wide_r]) 0 Adapt wide_l wide_r)
    by (repeat split).
  destruct (A) with (i := 0%nat) (m := Adapt) (x := wide_l) (y := wide_r) as (_ & _ & B); [|exact EQ|].
  - intros e (i & m & x & y & (E1 & E2 & E3) & ->).
    destruct i as [|[|i]]; [|discriminate E1|discriminate E1].
    injection E1 as <-; injection E2 as <-; injection E3 as <-.
    rewrite abs_nan; exact N.
  - (* the bound is smaller than the difference *)
    rewrite K in B; cbn [scale] in B; revert B; destruct wide_keys as (-> & ->); intros B.
    change (sp_tolerance (rf_parameters (one_equation Adapt))) with (ndec 1 1000000 : f64) in B.
    rewrite (proj2 two_u53) in B; assert (US := u53_small).
    assert (X8 : 8 <= bpow radix2 1022)
      by (change 8 with (bpow radix2 3); apply bpow_le; lia).
    rewrite !Rabs_pos_eq in B by lra.
    set (X := bpow radix2 1022) in *; set (t := key (ndec 1 1000000)) in *.
    assert (P : 0 < t) by (assert (0 < bpow radix2 (-1022)) by apply bpow_gt_0; lra).
    assert (Q : t * (1 + 8 * u53) <= / 4) by nra.
    assert (R : t * (1 + 8 * u53) * (1 + (3 * X + 2 * X) / 2) <= / 4 * (1 + (3 * X + 2 * X) / 2))
      by (apply Rmult_le_compat_r; lra).
    lra.
Qed.

(** The residual values of the state [s] are those of the real equations [g] = 0
    at its point, to within [eps]. *)
Definition accurate_at {St EI EU} (M : Model f64 St EI EU) (n : nat) (g : nat -> vec R -> R)
  (eps : R) (s : St) : Prop :=
  forall v, get_residuals M s = Ret v ->
  forall i l r, (i < n)%nat -> nth_error (rv_left v) i = Some l -> nth_error (rv_right v) i = Some r ->
  isfin l = true /\ isfin r = true /\
  Rabs (key l - key r - g i (map key (get_iteratives M s))) <= eps.

(** A point of the [region] which satisfies the equations to within [d] is
    within [beta * d] of the root: this is [bounded_below] (LocalFacts) for a
    linear system. *)
Definition well_conditioned (region : vec f64 -> Prop) (n : nat) (g : nat -> vec R -> R)
  (root : nat -> R) (beta : R) : Prop :=
  forall x d, region x -> (forall i, (i < n)%nat -> Rabs (g i (map key x)) <= d) ->
  forall j, (j < n)%nat -> Rabs (nth j (map key x) 0 - root j) <= beta * d.

Lemma nth_error_below {T} (v : list T) i : (i < length v)%nat -> exists x, nth_error v i = Some x.
Proof.
  intros H; destruct (nth_error v i) as [x|] eqn:E; [eauto|].
  apply nth_error_None in E; lia.
Qed.
Lemma nth_error_repeat_abs n i m : nth_error (repeat Abs n) i = Some m -> m = Abs.
Proof.
  intros E; apply nth_error_In, repeat_spec in E; exact E.
Qed.

Theorem C87_distance :
  forall (IF : Inverter f64) St EI EU (M : Model f64 St EI EU) rf s rf' s' r
    region n g root beta eps,
  let tol := sp_tolerance (rf_parameters rf) in
  solve M rf s = Ret (rf', s', r) -> r = Ok tt \/ r = Err FinalEvaluationError ->
  stopping_criterias (rf_residuals_config rf) = repeat Abs n ->
  isfin tol = true -> bpow radix2 (-1022) <= key tol ->
  accurate_at M n g eps s' -> well_conditioned region n g root beta ->
  region (get_iteratives M s') ->
  forall j, (j < n)%nat ->
  Rabs (nth j (map key (get_iteratives M s')) 0 - root j)
  <= beta * (key tol * (1 + bpow radix2 (-50)) + eps).
Proof.
  intros IF St EI EU M rf s rf' s' r region n g root beta eps tol H V Em Ft Ht AC WC RG j Hj.
  destruct (C87_sides_agree IF St EI EU M rf s rf' s' r H V Ft Ht) as (v & Hv & DS & AG).
  fold tol in AG; rewrite Em in DS, AG; unfold described in DS; rewrite repeat_length in DS.
  assert (NN : forall e, stopping_residual (repeat Abs n) v e -> isnan e = false).
  { intros e (i & m & a & b & (E1 & E2 & E3) & ->).
    assert (Hi : (i < n)%nat).
    { rewrite <- (repeat_length Abs n); apply nth_error_Some; rewrite E1; discriminate. }
    apply nth_error_repeat_abs in E1; subst m.
    destruct (AC _ Hv i a b Hi E2 E3) as (Fa & Fb & _).
    rewrite abs_nan; exact (proj1 (sub_fin a b Fa Fb)). }
  apply (WC (get_iteratives M s') (key tol * (1 + bpow radix2 (-50)) + eps) RG); [|exact Hj].
  intros i Hi.
  destruct (nth_error_below (rv_left v) i ltac:(lia)) as (a & Ea).
  destruct (nth_error_below (rv_right v) i ltac:(lia)) as (b & Eb).
  destruct (AC _ Hv i a b Hi Ea Eb) as (Fa & Fb & D).
  destruct (AG NN i Abs a b) as (_ & _ & D2).
  - split; [|split; assumption].
    destruct (nth_error_below (repeat Abs n) i ltac:(rewrite repeat_length; exact Hi)) as (m & Em').
    rewrite Em', (nth_error_repeat_abs _ _ _ Em'); reflexivity.
  - intros C; destruct (C eq_refl).
  - cbn [scale] in D2; rewrite Rmult_1_r in D2.
    set (gx := g i (map key (get_iteratives M s'))) in *.
    replace gx with (key a - key b - (key a - key b - gx)) by lra.
    eapply Rle_trans; [apply Rabs_triang|]; rewrite Rabs_Ropp; lra.
Qed.

Lemma Ret_inj {T} (x y : T) : Ret x = Ret y -> x = y.
Proof. intros H; injection H; auto. Qed.

(** The documented set-up (C84): a function evaluated to within [eps] in the
    region where the solve ends. *)
Theorem C87_defaults :
  forall f j M n guess m damped conf rf rf' s' (region : vec f64 -> Prop) g root beta eps,
  adapter f j M -> (forall x, length x = n -> length (f x) = n) -> square_jacobian j n ->
  length guess = n ->
  residuals_config_new (fst (convert_into_vecs (default_vec_residuals n)))
    (snd (convert_into_vecs (default_vec_residuals n))) = Ret conf ->
  default_with_guess guess (default_variables j n) conf m damped = Ret rf ->
  solve M rf (user_model_new n) = Ret (rf', s', Ok tt) ->
  (forall x, region x -> length x = n -> forall i a, nth_error (f x) i = Some a ->
     isfin a = true /\ Rabs (key a - g i (map key x)) <= eps) ->
  well_conditioned region n g root beta -> 0 <= beta ->
  region (get_iteratives M s') ->
  forall i, (i < n)%nat ->
  Rabs (nth i (map key (get_iteratives M s')) 0 - root i) <= beta * (/ 1000000 + eps).
Proof.
  intros f j M n guess m damped conf rf rf' s' region g root beta eps A L J Lg Ec Er Es AC WC Pb RG i Hi.
  destruct (C84_defaults f j M n guess m damped A L J Lg)
    as (conf2 & rf2 & rf2' & s2 & r2 & Ec2 & Er2 & Es2 & _ & Lx & R).
  rewrite Ec in Ec2; apply Ret_inj in Ec2; subst conf2.
  rewrite Er in Er2; apply Ret_inj in Er2; subst rf2.
  rewrite Es in Es2; apply Ret_inj in Es2.
  assert (E1 := f_equal snd Es2); assert (E2 := f_equal (fun p => snd (fst p)) Es2).
  cbn [fst snd] in E1, E2; subst s2 r2; clear Es2.
  destruct R as [(_ & _ & R)|[(Q & _)|Q]]; [|discriminate Q|discriminate Q].
  assert (AC' := AC _ RG Lx); assert (Lf := L _ Lx).
  set (x := get_iteratives M s') in *.
  apply (WC x (/ 1000000 + eps) RG); [|exact Hi]; intros k Hk.
  destruct (nth_error_below (f x) k ltac:(lia)) as (a & Ea).
  destruct (AC' k a Ea) as (Fa & D).
  destruct R as [(b & Ib & Nb)|R].
  - exfalso; apply In_nth_error in Ib; destruct Ib as (k' & Ek').
    destruct (AC' k' b Ek') as (Fb & _); apply fin_not_nan in Fb; congruence.
  - destruct (R a (nth_error_In _ _ Ea)) as (_ & B); rewrite <- (key_fin a Fa) in B.
    replace (g k (map key x)) with (key a - (key a - g k (map key x))) by lra.
    eapply Rle_trans; [apply Rabs_triang|]; rewrite Rabs_Ropp; lra.
Qed.
Print Assumptions C87_sides_agree.
Print Assumptions C87_overflow_refuted.
Print Assumptions C87_unconditional_refuted.
Print Assumptions C87_distance.
Print Assumptions C87_defaults.

(** Case: x^2 = 2 from 1 with the default set-up and finite differences; the
    point found is within 1e-6 of the square root of 2. *)
Definition between_1_2 (x : vec f64) : Prop :=
  exists a, x = [a] /\ isfin a = true /\ 1 <= key a <= 2.
Definition square_less_2 (_ : nat) (x : vec R) : R := nth 0 x 0 * nth 0 x 0 - 2.

Lemma key_2 : key (Fz 2) = 2 /\ isfin (Fz 2) = true.
Proof.
  split; [exact key_n2|vm_compute; reflexivity].
Qed.
Lemma square_accurate : forall a : f64, isfin a = true -> 1 <= key a <= 2 ->
  isfin (nsub (nmul a a) (Fz 2) : f64) = true /\
  Rabs (key (nsub (nmul a a) (Fz 2)) - (key a * key a - 2)) <= 16 * u53.
Proof.
  intros a Fa Ra; destruct key_2 as (K2 & F2).
  destruct (mul_fin a a Fa Fa) as (N1 & K1).
  assert (US := u53_small).
  assert (B4 : bpow radix2 10 <= big) by (apply bpow_le; lia).
  change (bpow radix2 10) with 1024 in B4.
  assert (T5 : bpow radix2 (-1075) <= u53) by (apply bpow_le; lia).
  assert (T6 : 0 < bpow radix2 (-1075)) by apply bpow_gt_0.
  assert (S4 : 1 <= key a * key a <= 4) by nra.
  assert (E1 := rnd_error (key a * key a)); rewrite (Rabs_pos_eq (key a * key a)) in E1 by lra.
  assert (E1' : Rabs (rnd (key a * key a) - key a * key a) <= 5 * u53) by nra.
  apply Rabs_le_inv in E1'.
  rewrite sat_id in K1 by (apply Rabs_le; lra).
  assert (F1 : isfin (nmul a a : f64) = true) by (apply key_finite; [exact N1|]; rewrite K1; apply Rabs_def1; lra).
  destruct (sub_fin _ _ F1 F2) as (N3 & K3); rewrite K1, K2 in K3.
  set (z := rnd (key a * key a)) in *.
  assert (E2 := rnd_error (z - 2)).
  assert (Z : Rabs (z - 2) <= 3) by (apply Rabs_le; lra).
  assert (E2' : Rabs (rnd (z - 2) - (z - 2)) <= 4 * u53) by nra.
  apply Rabs_le_inv in E2'; apply Rabs_le_inv in Z.
  rewrite sat_id in K3 by (apply Rabs_le; lra).
  split.
  - apply key_finite; [exact N3|]; rewrite K3; apply Rabs_def1; lra.
  - rewrite K3; apply Rabs_le; lra.
Qed.
Lemma square_conditioned : well_conditioned between_1_2 1 square_less_2 (fun _ => sqrt 2) (/ 2).
Proof.
  intros x d (a & -> & _ & Ra) H j Hj; assert (j = 0%nat) by lia; subst j.
  specialize (H 0%nat Hj); unfold square_less_2 in H; cbn [map nth] in *.
  assert (S2 := sqrt_sqrt 2 ltac:(lra)); assert (S0 := sqrt_pos 2).
  assert (S1 : 1 <= sqrt 2) by (rewrite <- sqrt_1; apply sqrt_le_1_alt; lra).
  set (q := sqrt 2) in *.
  replace (key a * key a - 2) with ((key a + q) * (key a - q)) in H by lra.
  rewrite Rabs_mult, (Rabs_pos_eq (key a + q)) in H by lra.
  assert (P := Rabs_pos (key a - q)); nra.
Qed.

Definition default_conf_1 : residuals_config := mkResidualsConfig [Abs] [Abs].
Definition default_square : outcome (rootfinder f64) :=
  default_with_guess [Fz 1] (default_variables (None : option (vec f64 -> mat f64)) 1) default_conf_1 NewtonRaphson false.

Example C87_case : exists rf rf' s', default_square = Ret rf /\
  solve (model_from_function sq2) rf (user_model_new 1) = Ret (rf', s', Ok tt) /\
  Rabs (nth 0 (map key (um_inputs s')) 0 - sqrt 2) <= / 1000000.
Proof.
  assert (Q : match default_square with
              | Ret rf => check_run (solve (model_from_function sq2) rf (user_model_new 1))
                  (fun _ s r => is_ok r &&
                     match um_inputs s with
                     | [a] => nleb n1 a && nleb a n2
                     | _ => false
                     end)
              | Panic _ => false
              end = true) by (vm_compute; reflexivity).
  destruct default_square as [rf|] eqn:Er; [|discriminate Q].
  apply check_run_true in Q; destruct Q as (rf' & s' & r & Es & Q).
  apply andb_prop in Q; destruct Q as (Qr & Q).
  destruct r as [[]|e]; [|discriminate Qr].
  destruct (um_inputs s') as [|a [|? ?]] eqn:Ea; try discriminate Q.
  apply andb_prop in Q; destruct Q as (Q1 & Q2).
  apply leb_true_inv in Q1, Q2; destruct Q1 as (_ & Na & Q1), Q2 as (_ & _ & Q2).
  rewrite key_n1 in Q1; rewrite key_n2 in Q2.
  assert (Fa : isfin a = true).
  { apply key_finite; [exact Na|]; assert (B4 : bpow radix2 10 <= big) by (apply bpow_le; lia).
    change (bpow radix2 10) with 1024 in B4; apply Rabs_def1; lra. }
  exists rf, rf', s'; split; [reflexivity|]; split; [exact Es|].
  assert (US : 16 * u53 <= / 1000000).
  { replace (16 * u53) with (bpow radix2 (-49)).
    2: { change 16 with (bpow radix2 4); now rewrite <- bpow_plus. }
    apply Rle_trans with (bpow radix2 (-20)); [apply bpow_le; lia|].
    change (bpow radix2 (-20)) with (/ 1048576); lra. }
  apply Rle_trans with (/ 2 * (/ 1000000 + 16 * u53)); [|lra].
  apply (C87_defaults sq2 None (model_from_function sq2) 1 [Fz 1] NewtonRaphson false default_conf_1
           rf rf' s' between_1_2 square_less_2 (fun _ => sqrt 2) (/ 2) (16 * u53)
           (adapter_function sq2)); try reflexivity; try exact Es; try lia; try lra.
  - intros x Lx; unfold sq2; rewrite map_length; exact Lx.
  - exact Er.
  - intros x (b & -> & Fb & Rb) _ i c Ec; unfold sq2 in Ec; cbn [map] in Ec.
    destruct i as [|[|i]]; [|discriminate Ec|discriminate Ec]; cbn [nth_error] in Ec.
    injection Ec as <-; unfold square_less_2; cbn [map nth]; exact (square_accurate b Fb Rb).
  - exact square_conditioned.
  - exists a; split; [exact Ea|auto].
Qed.

(** The three methods on sides which agree and on sides which do not. *)
Example C87_case_methods :
  map (fun m => is_ok (match solve (two_sides (Fz 1000000) (Fz 1000001)) (one_equation m) [] with
                       | Ret (_, _, r) => r | Panic _ => Err NonConvergenceError end))
    [Abs; Rel; Adapt] = [false; true; true].
Proof. vm_compute. reflexivity. Qed.
