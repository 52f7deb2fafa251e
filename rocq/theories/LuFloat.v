(** The inversion in floating point: with a matrix that is bounded below, the
    elimination meets no small pivot and the columns it returns solve the systems
    up to roundings. *)
From Coq Require Import Reals Lra Lia ZArith List Bool.
From Flocq Require Import Core BinarySingleNaN.
From Verif Require Import Base Num F64 Linalg F64Facts F64Arith RNum LocalFacts PropsNorm PropsAccuracy LuFacts
  FloatRun PropsFloat.
Import ListNotations.
Open Scope R_scope.

Notation lo := (bpow radix2 (-400)).
Notation hi := (bpow radix2 400).

Lemma lo_hi : 0 < lo /\ 1 <= hi /\ lo * hi = 1.
Proof.
  split; [apply bpow_gt_0|]; split; [change 1 with (bpow radix2 0); apply bpow_le; lia|].
  rewrite <- bpow_plus; reflexivity.
Qed.
Lemma sizes : tiny <= u53 * lo /\ tiny * hi <= u53 * lo /\ hi * hi <= huge /\ hi * hi * 8 <= u53 * huge * 4.
Proof.
  split; [rewrite <- bpow_plus; apply bpow_le; lia|].
  split; [rewrite <- !bpow_plus; apply bpow_le; lia|].
  split; [rewrite <- bpow_plus; apply bpow_le; lia|].
  replace 8 with (bpow radix2 3) by (cbn; lra); replace 4 with (bpow radix2 2) by (cbn; lra).
  rewrite <- !bpow_plus; apply bpow_le; lia.
Qed.

(** ** The pivot is an entry of largest magnitude *)
Lemma icamax_float_from : forall col i best ibest (full : list f64),
  Forall (fun x => isfin x = true) full ->
  (ibest < i)%nat -> full = firstn i full ++ col -> (i <= length full)%nat ->
  nabs (nth ibest full n0) = best ->
  (forall j, (j < i)%nat -> Rabs (key (nth j full n0)) <= key best) ->
  let k := icamax_from col i best ibest in
  (k < length full)%nat /\
  forall j, (j < length full)%nat -> Rabs (key (nth j full n0)) <= Rabs (key (nth k full n0)).
Proof.
  induction col as [|x col IH]; intros i best ibest full FF L E Li B M; cbn [icamax_from].
  - rewrite app_nil_r in E.
    assert (Lf : length full = i).
    { apply (f_equal (@length f64)) in E; rewrite firstn_length in E; lia. }
    split; [lia|]; intros j Hj; subst best; eapply Rle_trans; [apply M; lia|]; apply Req_le, key_abs.
  - assert (Lt : (i < length full)%nat).
    { apply (f_equal (@length f64)) in E; rewrite app_length, firstn_length in E; cbn in E; lia. }
    assert (X : nth i full n0 = x).
    { rewrite E, app_nth2; rewrite firstn_length, Nat.min_l by lia; [|lia].
      rewrite Nat.sub_diag; reflexivity. }
    assert (E' : full = firstn (S i) full ++ col).
    { rewrite <- (firstn_skipn i full) at 1.
      assert (SK : skipn i full = x :: col).
      { apply (app_inv_head (firstn i full)); rewrite firstn_skipn; exact E. }
      rewrite SK.
      assert (F1 : firstn (S i) full = firstn i full ++ [x]).
      { rewrite <- (firstn_skipn i full) at 1; rewrite SK, firstn_app, firstn_length, Nat.min_l by lia.
        rewrite firstn_all2 by (rewrite firstn_length; lia).
        replace (S i - i)%nat with 1%nat by lia; reflexivity. }
      rewrite F1, <- app_assoc; reflexivity. }
    assert (NX : isnan (nabs x) = false).
    { transitivity (isnan x); [apply abs_nan|]; apply fin_not_nan; rewrite <- X.
      apply (proj1 (Forall_forall _ _) FF); apply nth_In; exact Lt. }
    assert (NB : isnan best = false).
    { rewrite <- B; transitivity (isnan (nth ibest full n0)); [apply abs_nan|]; apply fin_not_nan.
      apply (proj1 (Forall_forall _ _) FF); apply nth_In; lia. }
    assert (KX : key (nabs x) = Rabs (key x)) by apply key_abs.
    unfold ngtb; destruct (nltb best (nabs x)) eqn:C.
    + apply ltb_key in C; [|assumption|assumption].
      apply IH; try lia; try assumption.
      * rewrite X; reflexivity.
      * intros j Hj; destruct (Nat.eq_dec j i) as [->|N]; [rewrite X; apply Req_le; symmetry; exact KX|].
        pose proof (M j ltac:(lia)); lra.
    + apply ltb_key_false in C; [|assumption|assumption]; pose proof (Rle_trans _ _ _ (Req_le _ _ (eq_sym KX)) C) as C'.
      apply IH; try lia; try assumption.
      intros j Hj; destruct (Nat.eq_dec j i) as [->|N]; [rewrite X; exact C'|].
      apply M; lia.
Qed.
Lemma icamax_float (col : list f64) : col <> [] -> Forall (fun x => isfin x = true) col ->
  (icamax col < length col)%nat /\
  forall j, (j < length col)%nat -> Rabs (key (nth j col n0)) <= Rabs (key (nth (icamax col) col n0)).
Proof.
  destruct col as [|x col]; [congruence|]; intros _ FF; unfold icamax.
  apply icamax_float_from; try (cbn; lia); try assumption.
  - reflexivity.
  - reflexivity.
  - intros j Hj; replace j with 0%nat by lia; cbn [nth]; apply Req_le; symmetry; apply key_abs.
Qed.

(** ** One entry *)
Lemma one_float : isfin (n1 : f64) = true /\ key n1 = 1.
Proof. split; [reflexivity|]. apply LimitFacts.key_n1. Qed.

Lemma coeff_error (a d : f64) : isfin a = true -> isfin d = true -> Rabs (key a) <= Rabs (key d) ->
  lo <= Rabs (key d) <= hi ->
  let c := nmul a (ndiv n1 d) in
  isfin c = true /\ Rabs (key c) <= 1 + 4 * u53 /\ Rabs (key a - key c * key d) <= 4 * u53 * Rabs (key d).
Proof.
  intros Fa Fd LE (L1 & L2) c.
  pose proof u53_small as HU; pose proof tiny_pos as HT; pose proof huge_big as HH.
  destruct lo_hi as (P1 & P2 & P3); destruct sizes as (S1 & S2 & S3 & _).
  set (D := Rabs (key d)) in *.
  assert (PD : 0 < D) by lra.
  assert (ND : key d <> 0) by (intros Z; unfold D in PD; rewrite Z, Rabs_R0 in PD; lra).
  assert (IU : / D <= hi).
  { apply Rmult_le_reg_l with D; [exact PD|]; rewrite Rinv_r by lra; rewrite <- P3; apply Rmult_le_compat_r; lra. }
  assert (IL : lo <= / D).
  { apply Rmult_le_reg_l with D; [exact PD|]; rewrite Rinv_r by lra; rewrite <- P3, Rmult_comm.
    apply Rmult_le_compat_l; lra. }
  destruct one_float as (F1 & K1).
  assert (A1 : Rabs (key (n1 : f64) / key d) = / D)
    by (rewrite K1; unfold Rdiv; rewrite Rmult_1_l, Rabs_inv; reflexivity).
  destruct (rounded (key (n1 : f64) / key d) (ndiv n1 d) (div_fin n1 d F1 Fd ND)) as (F2 & E2).
  { rewrite A1; nra. }
  rewrite A1 in E2; rewrite K1 in E2; unfold Rdiv in E2; rewrite Rmult_1_l in E2.
  set (v := ndiv n1 d) in *; clearbody v.
  assert (E3 : Rabs (key v - / key d) <= 2 * u53 * / D).
  { assert (u53 * lo <= u53 * / D) by (apply Rmult_le_compat_l; lra); lra. }
  assert (E4 : Rabs (key a * key v - key a * / key d) <= 2 * u53).
  { rewrite <- Rmult_minus_distr_l, Rabs_mult.
    apply Rle_trans with (D * (2 * u53 * / D)); [apply Rmult_le_compat; try apply Rabs_pos; assumption|].
    apply Req_le; field; lra. }
  assert (E5 : Rabs (key a * / key d) <= 1).
  { rewrite Rabs_mult, Rabs_inv; fold D; apply Rmult_le_reg_r with D; [exact PD|].
    rewrite Rmult_assoc, Rinv_l by lra; lra. }
  assert (E6 : Rabs (key a * key v) <= 1 + 2 * u53)
    by (pose proof (Rabs_triang_inv (key a * key v) (key a * / key d)); lra).
  destruct (rounded (key a * key v) c (mul_fin a v Fa F2)) as (F3 & E7); [lra|].
  assert (TU : tiny <= u53 / 1024) by lra.
  assert (u53 * Rabs (key a * key v) <= u53 * (1 + 2 * u53)) by (apply Rmult_le_compat_l; lra).
  assert (UU : u53 * u53 <= / 1024 * u53) by (apply Rmult_le_compat_r; lra).
  assert (E8 : Rabs (key c - key a * / key d) <= 4 * u53).
  { replace (key c - key a * / key d) with ((key c - key a * key v) + (key a * key v - key a * / key d)) by ring.
    eapply Rle_trans; [apply Rabs_triang|]; lra. }
  split; [exact F3|]; split.
  - pose proof (Rabs_triang_inv (key c) (key a * / key d)); lra.
  - replace (key a - key c * key d) with (- ((key c - key a * / key d) * key d)) by (field; exact ND).
    rewrite Rabs_Ropp, Rabs_mult; fold D; apply Rmult_le_compat_r; lra.
Qed.

Lemma axpy_error (c p a : f64) m : isfin c = true -> isfin p = true -> isfin a = true ->
  Rabs (key c) <= 1 + 4 * u53 -> Rabs (key p) <= m -> Rabs (key a) <= m -> lo <= m <= hi ->
  let z := nadd (nmul (nneg c) p) a in
  isfin z = true /\ Rabs (key z - (key a - key c * key p)) <= 5 * u53 * m /\ Rabs (key z) <= 9 / 4 * m.
Proof.
  intros Fc Fp Fa BC BP BA (L1 & L2) z.
  pose proof u53_small as HU; pose proof tiny_pos as HT; pose proof huge_big as HH.
  destruct lo_hi as (P1 & P2 & P3); destruct sizes as (S1 & S2 & S3 & _).
  assert (TM : tiny <= u53 * m * / 4).
  { assert (4 * tiny <= u53 * lo).
    { replace 4 with (bpow radix2 2) by (cbn; lra); rewrite <- !bpow_plus; apply bpow_le; lia. }
    assert (u53 * lo <= u53 * m) by (apply Rmult_le_compat_l; lra); lra. }
  assert (B1 : Rabs (key (nneg c) * key p) <= (1 + 4 * u53) * m).
  { rewrite key_neg, Rabs_mult, Rabs_Ropp; apply Rmult_le_compat; try apply Rabs_pos; assumption. }
  assert (MU : (1 + 4 * u53) * m <= 1.01 * m) by (apply Rmult_le_compat_r; lra).
  assert (HM : m <= huge) by nra.
  destruct (rounded (key (nneg c) * key p) (nmul (nneg c) p)) as (F1 & E1);
    [apply mul_fin; [rewrite opp_fin; exact Fc|exact Fp]|nra|].
  set (w := nmul (nneg c) p) in *; clearbody w; rewrite key_neg in *.
  assert (U1 : u53 * Rabs (- key c * key p) <= u53 * (1.01 * m)) by (apply Rmult_le_compat_l; lra).
  assert (B2 : Rabs (key w + key a) <= 2.1 * m).
  { pose proof (Rabs_triang (key w) (key a)); pose proof (Rabs_triang_inv (key w) (- key c * key p)).
    assert (u53 * m <= / 1024 * m) by (apply Rmult_le_compat_r; lra); lra. }
  destruct (rounded (key w + key a) z) as (F2 & E2); [apply add_fin; assumption|nra|].
  assert (U2 : u53 * Rabs (key w + key a) <= u53 * (2.1 * m)) by (apply Rmult_le_compat_l; lra).
  assert (E3 : Rabs (key z - (key a - key c * key p)) <= 5 * u53 * m).
  { replace (key z - (key a - key c * key p))
      with ((key z - (key w + key a)) + (key w - (- key c * key p))) by ring.
    eapply Rle_trans; [apply Rabs_triang|]; lra. }
  split; [exact F2|]; split; [exact E3|].
  assert (u53 * m <= / 1024 * m) by (apply Rmult_le_compat_r; lra).
  assert (B3 : Rabs (key a - key c * key p) <= m + 1.01 * m).
  { unfold Rminus; eapply Rle_trans; [apply Rabs_triang|]; rewrite Rabs_Ropp.
    replace (key c * key p) with (- (- key c * key p)) by ring; rewrite Rabs_Ropp; lra. }
  assert (B4 : Rabs (key a - key c * key p) <= 2.01 * m) by lra.
  pose proof (Rabs_triang_inv (key z) (key a - key c * key p)); lra.
Qed.

(** ** The back substitution of one unknown *)
Definition back_col (b : f64) (t x : vec f64) : f64 :=
  fold_right (fun tx acc => nadd (nmul (nneg (fst tx)) (snd tx)) acc) b (combine t x).

Lemma back_error W : forall (t x : vec f64) (b : f64), length t = length x ->
  (forall i, (i < length t)%nat -> isfin (nth i t n0) = true /\ isfin (nth i x n0) = true) ->
  isfin b = true -> 0 <= W <= huge ->
  Rabs (key b) + rsum (length t) (fun i => Rabs (ent t i * ent x i)) <= W ->
  INR (length t) * u53 <= / 8 ->
  isfin (back_col b t x) = true /\
  Rabs (key (back_col b t x) - (key b - rsum (length t) (fun i => ent t i * ent x i)))
    <= 4 * INR (length t) * (u53 * W + tiny).
Proof.
  pose proof u53_small as HU; pose proof tiny_pos as HT; pose proof huge_big as HH.
  induction t as [|t0 t IH]; intros [|x0 x] b L FF FB BW BS BK; try discriminate.
  - cbn [back_col combine fold_right length rsum INR]; split; [exact FB|].
    rewrite Rminus_0_r, Rminus_eq_0, Rabs_R0, Rmult_0_r, Rmult_0_l; lra.
  - cbn [length rsum] in BS; cbn [length] in BK.
    change (ent (t0 :: t) 0 * ent (x0 :: x) 0) with (key t0 * key x0) in BS.
    change (fun i : nat => Rabs (ent (t0 :: t) (S i) * ent (x0 :: x) (S i)))
      with (fun i : nat => Rabs (ent t i * ent x i)) in BS.
    destruct (FF O ltac:(cbn; lia)) as (Ft & Fx); cbn [nth] in Ft, Fx.
    set (k := length t) in *.
    assert (BK' : INR k * u53 <= / 8).
    { apply Rle_trans with (2 := BK); apply Rmult_le_compat_r; [lra|apply le_INR; lia]. }
    pose proof (Rabs_pos (key t0 * key x0)) as Pp.
    destruct (IH x b ltac:(injection L as L; exact L)
      ltac:(intros i Hi; apply (FF (S i)); cbn; lia) FB BW ltac:(lra) BK') as (F1 & E1).
    change (back_col b (t0 :: t) (x0 :: x)) with (nadd (nmul (nneg t0) x0) (back_col b t x)).
    set (acc := back_col b t x) in *; clearbody acc.
    set (R1 := rsum k (fun i => ent t i * ent x i)) in *.
    set (R0 := rsum k (fun i => Rabs (ent t i * ent x i))) in *.
    assert (R01 : Rabs R1 <= R0) by apply rsum_abs.
    cbn [length rsum]; change (ent (t0 :: t) 0 * ent (x0 :: x) 0) with (key t0 * key x0).
    change (fun i : nat => ent (t0 :: t) (S i) * ent (x0 :: x) (S i)) with (fun i : nat => ent t i * ent x i).
    change (length t) with k; fold R1.
    set (p := key t0 * key x0) in *; set (T := u53 * W + tiny) in *.
    assert (PT : 0 <= T) by (unfold T; nra).
    assert (PK : 0 <= INR k) by apply pos_INR.
    set (s := key b - R1) in *.
    assert (BS1 : Rabs s <= Rabs (key b) + R0).
    { unfold s, Rminus; eapply Rle_trans; [apply Rabs_triang|]; rewrite Rabs_Ropp; lra. }
    pose proof (Rabs_pos s) as Ps.
    destruct (rounded (- p) (nmul (nneg t0) x0)) as (F2 & E2).
    { replace (- p) with (key (nneg t0) * key x0) by (rewrite key_neg; unfold p; ring).
      apply mul_fin; [rewrite opp_fin; exact Ft|exact Fx]. }
    { rewrite Rabs_Ropp; lra. }
    rewrite Rabs_Ropp in E2.
    set (m := nmul (nneg t0) x0) in *; clearbody m.
    assert (A1 : Rabs (key m) <= Rabs p + u53 * Rabs p + tiny).
    { pose proof (Rabs_triang_inv (key m) (- p)); rewrite Rabs_Ropp in *; lra. }
    assert (A2 : Rabs (key acc) <= Rabs s + 4 * INR k * T) by (pose proof (Rabs_triang_inv (key acc) s); lra).
    assert (KT : INR k * u53 * T <= / 8 * T) by (apply Rmult_le_compat_r; lra).
    assert (SP : Rabs (key m + key acc) <= W + 4 * INR k * T + T).
    { pose proof (Rabs_triang (key m) (key acc)).
      assert (u53 * Rabs p <= u53 * W) by (apply Rmult_le_compat_l; lra); unfold T in *; lra. }
    assert (KT2 : 4 * INR k * T <= W / 2 + / 2).
    { assert (4 * INR k * T = 4 * (INR k * u53) * W + 4 * (INR k * tiny)) as -> by (unfold T; ring).
      assert (INR k * u53 * W <= / 8 * W) by (apply Rmult_le_compat_r; lra).
      assert (INR k * tiny <= INR k * (u53 / 1024)) by (apply Rmult_le_compat_l; lra); lra. }
    destruct (rounded (key m + key acc) (nadd m acc) (add_fin m acc F2 F1)) as (F3 & E3).
    { assert (u53 * W <= 1 * W) by (apply Rmult_le_compat_r; lra); unfold T in *; lra. }
    split; [exact F3|].
    replace (key (nadd m acc) - (key b - (p + R1)))
      with ((key (nadd m acc) - (key m + key acc)) + ((key acc - s) + (key m - - p))) by (unfold s; ring).
    eapply Rle_trans; [apply Rabs_triang|].
    assert (Q := Rabs_triang (key acc - s) (key m - - p)).
    assert (u53 * Rabs p <= u53 * W) by (apply Rmult_le_compat_l; lra).
    assert (u53 * Rabs (key m + key acc) <= u53 * (W + 4 * INR k * T + T)) by (apply Rmult_le_compat_l; lra).
    assert (u53 * (W + 4 * INR k * T + T) = u53 * W + 4 * (INR k * u53 * T) + u53 * T) by ring.
    assert (u53 * T <= / 1024 * T) by (apply Rmult_le_compat_r; lra).
    change (S (length t)) with (S k); rewrite S_INR; unfold T in *; lra.
Qed.

(** ** One elimination step *)
Definition val (k : nat) (r : vec f64) (x : nat -> R) : R := rsum k (fun j => ent r j * x j).

(** [k] rows of [k] finite entries of size at most [m], with [w] right-hand sides
    of size at most [D]. *)
Definition fine (k w : nat) (m D : R) (rows : list (vec f64 * vec f64)) : Prop :=
  length rows = k /\
  forall rb, In rb rows -> length (fst rb) = k /\ length (snd rb) = w /\
  (forall j, (j < k)%nat -> isfin (nth j (fst rb) n0) = true /\ Rabs (ent (fst rb) j) <= m) /\
  (forall j, (j < w)%nat -> isfin (nth j (snd rb) n0) = true /\ Rabs (ent (snd rb) j) <= D).

Definition below (k : nat) (rows : list (vec f64 * vec f64)) (c : R) : Prop :=
  forall x t, 0 <= t -> (forall rb, In rb rows -> Rabs (val k (fst rb) x) <= t) ->
  forall i, (i < k)%nat -> c * Rabs (x i) <= t.

Definition lu_step64 (piv b : vec f64) (rb : vec f64 * vec f64) : vec f64 * vec f64 :=
  let coeff := nmul (hd n0 (fst rb)) (ndiv n1 (hd n0 piv)) in
  (axpy (nneg coeff) (tl piv) (tl (fst rb)), axpy (nneg coeff) b (snd rb)).

Lemma lu_forward_S64 n (rows : list (vec f64 * vec f64)) :
  lu_forward (S n) rows =
  match swap_rows rows (icamax (map (fun rb => hd n0 (fst rb)) rows)) with
  | [] => Some []
  | (piv, b) :: rest =>
      if neqb (hd n0 piv) n0 then None
      else match lu_forward n (map (lu_step64 piv b) rest) with
           | Some u => Some ((piv, b) :: u)
           | None => None
           end
  end.
Proof. reflexivity. Qed.

Lemma hd_nth (l : vec f64) : hd n0 l = nth 0 l n0.
Proof. destruct l; reflexivity. Qed.
Lemma tl_nth (l : vec f64) j : nth j (tl l) n0 = nth (S j) l n0.
Proof. destruct l; [destruct j; reflexivity|reflexivity]. Qed.
Lemma tl_length (l : vec f64) k : length l = S k -> length (tl l) = k.
Proof. destruct l; [discriminate|]; intros E; injection E as E; exact E. Qed.

Lemma pivot_float k w m D rows : fine (S k) w m D rows ->
  exists piv b rest, swap_rows rows (icamax (map (fun rb => hd n0 (fst rb)) rows)) = (piv, b) :: rest /\
  length rest = k /\ (forall rb, In rb rows <-> rb = (piv, b) \/ In rb rest) /\
  forall rb, In rb rows -> Rabs (ent (fst rb) 0) <= Rabs (ent piv 0).
Proof.
  intros (L & FR).
  set (f := fun rb : vec f64 * vec f64 => hd n0 (fst rb)).
  set (ic := icamax (map f rows)).
  destruct (swap_rows rows ic) as [|(piv, b) rest] eqn:E.
  { apply (f_equal (@length _)) in E; rewrite swap_rows_len, L in E; discriminate. }
  exists piv, b, rest; split; [exact E|].
  assert (LR : length ((piv, b) :: rest) = S k) by (rewrite <- E, swap_rows_len; exact L).
  split; [injection LR as LR; exact LR|].
  split.
  { intros rb; rewrite <- (swap_rows_in rows ic rb), E; cbn [In]; split; intros [->|H]; tauto. }
  destruct (icamax_float (map f rows)) as (IC & MX).
  { intros Z; apply (f_equal (@length _)) in Z; rewrite map_length, L in Z; discriminate. }
  { apply Forall_map, Forall_forall; intros rb Hrb; destruct (FR rb Hrb) as (L1 & _ & F1 & _).
    unfold f; rewrite hd_nth; apply F1; lia. }
  fold ic in IC, MX; rewrite map_length in IC, MX.
  assert (P : nth ic rows ([], []) = (piv, b)).
  { rewrite <- (swap_rows_hd rows ic ([], [])) by exact IC; rewrite E; reflexivity. }
  intros rb Hrb; destruct (In_nth rows rb ([], []) Hrb) as (j & Hj & EJ).
  specialize (MX j Hj).
  rewrite !(map_nth f rows ([], []) : forall n, nth n (map f rows) n0 = _) in MX.
  rewrite P, EJ in MX; unfold f in MX; cbn [fst] in MX; rewrite !hd_nth in MX; exact MX.
Qed.

(** What one step does to a row: [cc] times the pivot row is subtracted, up to
    roundings. *)
Lemma step_row k w m D (piv b : vec f64) (rb : vec f64 * vec f64) : lo <= m <= hi -> lo <= D <= hi -> lo <= Rabs (ent piv 0) ->
  length piv = S k -> length b = w -> length (fst rb) = S k -> length (snd rb) = w ->
  (forall j, (j < S k)%nat -> isfin (nth j piv n0) = true /\ Rabs (ent piv j) <= m) ->
  (forall j, (j < w)%nat -> isfin (nth j b n0) = true /\ Rabs (ent b j) <= D) ->
  (forall j, (j < S k)%nat -> isfin (nth j (fst rb) n0) = true /\ Rabs (ent (fst rb) j) <= m) ->
  (forall j, (j < w)%nat -> isfin (nth j (snd rb) n0) = true /\ Rabs (ent (snd rb) j) <= D) ->
  Rabs (ent (fst rb) 0) <= Rabs (ent piv 0) ->
  let rb' := lu_step64 piv b rb in
  length (fst rb') = k /\ length (snd rb') = w /\
  exists cc : R, Rabs cc <= 1 + 4 * u53 /\ Rabs (ent (fst rb) 0 - cc * ent piv 0) <= 4 * u53 * Rabs (ent piv 0) /\
  (forall j, (j < k)%nat -> isfin (nth j (fst rb') n0) = true /\ Rabs (ent (fst rb') j) <= 9 / 4 * m /\
     Rabs (ent (fst rb') j - (ent (fst rb) (S j) - cc * ent piv (S j))) <= 5 * u53 * m) /\
  (forall j, (j < w)%nat -> isfin (nth j (snd rb') n0) = true /\ Rabs (ent (snd rb') j) <= 9 / 4 * D /\
     Rabs (ent (snd rb') j - (ent (snd rb) j - cc * ent b j)) <= 5 * u53 * D).
Proof.
  intros HM HD HP Lp Lb La Lr Fp Fb Fa Fr MX rb'.
  assert (L1 : length (tl piv) = length (tl (fst rb)))
    by (transitivity k; [exact (tl_length piv k Lp)|symmetry; exact (tl_length _ k La)]).
  assert (L2 : length b = length (snd rb)) by congruence.
  destruct (Fp O ltac:(lia)) as (Fp0 & Bp0); destruct (Fa O ltac:(lia)) as (Fa0 & Ba0).
  destruct (coeff_error (nth 0 (fst rb) n0) (nth 0 piv n0) Fa0 Fp0 MX) as (FC & BC & EC).
  { split; [exact HP|]; unfold ent in Bp0; lra. }
  unfold rb', lu_step64; rewrite !hd_nth; cbn [fst snd].
  set (cf := nmul (nth 0 (fst rb) n0) (ndiv n1 (nth 0 piv n0))) in *; clearbody cf.
  split; [eapply eq_trans; [apply FloatRun.map2_length; exact L1|exact (tl_length piv k Lp)]|].
  split; [eapply eq_trans; [apply FloatRun.map2_length; exact L2|exact Lb]|].
  exists (key cf); split; [exact BC|]; split; [exact EC|]; split; intros j Hj.
  - destruct (Fp (S j) ltac:(lia)) as (F1 & B1); destruct (Fa (S j) ltac:(lia)) as (F2 & B2).
    destruct (axpy_error cf (nth (S j) piv n0) (nth (S j) (fst rb) n0) m FC F1 F2 BC B1 B2 HM) as (F3 & E3 & B3).
    assert (NJ : nth j (axpy (nneg cf) (tl piv) (tl (fst rb))) n0
      = nadd (nmul (nneg cf) (nth (S j) piv n0)) (nth (S j) (fst rb) n0)).
    { eapply eq_trans; [apply PropsFloat.nth_map2; [exact L1|rewrite (tl_length piv k Lp); exact Hj]|].
      cbv beta; rewrite !tl_nth; reflexivity. }
    unfold ent; rewrite NJ; split; [exact F3|]; split; [exact B3|exact E3].
  - destruct (Fb j Hj) as (F1 & B1); destruct (Fr j Hj) as (F2 & B2).
    destruct (axpy_error cf (nth j b n0) (nth j (snd rb) n0) D FC F1 F2 BC B1 B2 HD) as (F3 & E3 & B3).
    assert (NJ : nth j (axpy (nneg cf) b (snd rb)) n0
      = nadd (nmul (nneg cf) (nth j b n0)) (nth j (snd rb) n0)).
    { eapply eq_trans; [apply PropsFloat.nth_map2; [exact L2|rewrite Lb; exact Hj]|reflexivity]. }
    unfold ent; rewrite NJ; split; [exact F3|]; split; [exact B3|exact E3].
Qed.

(** ** The back substitution, column by column *)
Lemma back_length w : forall (t : vec f64) (X : mat f64) (b : vec f64),
  length b = w -> length X = length t -> (forall r, In r X -> length r = w) ->
  length (fold_right (fun (ux : f64 * vec f64) (acc : vec f64) => axpy (nneg (fst ux)) (snd ux) acc) b (combine t X)) = w.
Proof.
  induction t as [|t0 t IH]; intros [|r X] b Lb LX LR; try discriminate; [exact Lb|].
  assert (L := IH X b Lb ltac:(injection LX as LX; exact LX) ltac:(intros; apply LR; right; assumption)).
  assert (Lr : length r = w) by (apply LR; left; reflexivity).
  cbn [combine fold_right fst snd].
  eapply eq_trans; [apply FloatRun.map2_length; congruence|exact Lr].
Qed.
Lemma back_nth w : forall (t : vec f64) (X : mat f64) (b : vec f64) j,
  length b = w -> length X = length t -> (forall r, In r X -> length r = w) -> (j < w)%nat ->
  nth j (fold_right (fun (ux : f64 * vec f64) (acc : vec f64) => axpy (nneg (fst ux)) (snd ux) acc) b (combine t X)) n0
  = back_col (nth j b n0) t (map (fun r => nth j r n0) X).
Proof.
  induction t as [|t0 t IH]; intros [|r X] b j Lb LX LR Hj; try discriminate; [reflexivity|].
  assert (LX' : length X = length t) by (injection LX as LX; exact LX).
  assert (LR' : forall r, In r X -> length r = w) by (intros; apply LR; right; assumption).
  assert (E := IH X b j Lb LX' LR' Hj); assert (L := back_length w t X b Lb LX' LR').
  assert (Lr : length r = w) by (apply LR; left; reflexivity).
  cbn [combine fold_right fst snd map].
  set (acc := fold_right (fun (ux : f64 * vec f64) (acc : vec f64) => axpy (nneg (fst ux)) (snd ux) acc) b (combine t X)) in *.
  eapply eq_trans; [apply PropsFloat.nth_map2; [congruence|rewrite Lr; exact Hj]|].
  cbv beta; rewrite E; reflexivity.
Qed.

Lemma lu_backward_cons64 (row b : vec f64) u : lu_backward ((row, b) :: u) =
  vdiv (fold_right (fun ux acc => axpy (nneg (fst ux)) (snd ux) acc) b
         (combine (tl row) (lu_backward u))) (hd n0 row) :: lu_backward u.
Proof. reflexivity. Qed.

(** The computed unknowns [X] solve the rows up to [rho]. *)
Definition solves (k w : nat) (rows : list (vec f64 * vec f64)) (X : mat f64) (rho Y : R) : Prop :=
  length X = k /\ (forall r, In r X -> length r = w) /\
  (forall i j, (i < k)%nat -> (j < w)%nat -> isfin (nth j (nth i X []) n0) = true /\ Rabs (mentf X i j) <= Y) /\
  forall rb, In rb rows -> forall j, (j < w)%nat ->
    Rabs (val k (fst rb) (fun i => mentf X i j) - ent (snd rb) j) <= rho.

(** ** The reduced rows are bounded below as well *)
Definition push (x0 : R) (y : nat -> R) (i : nat) : R := match i with O => x0 | S i' => y i' end.

Lemma val_push k (r : vec f64) x0 y : length r = S k ->
  val (S k) r (push x0 y) = ent r 0 * x0 + rsum k (fun j => ent r (S j) * y j).
Proof. reflexivity. Qed.

Lemma pivot_below k (rows : list (vec f64 * vec f64)) (piv : vec f64) c : below (S k) rows c ->
  (forall rb, In rb rows -> Rabs (ent (fst rb) 0) <= Rabs (ent piv 0)) -> c <= Rabs (ent piv 0).
Proof.
  intros HB MX.
  assert (Q := HB (push 1 (fun _ => 0)) (Rabs (ent piv 0)) (Rabs_pos _)).
  specialize (Q ltac:(intros rb Hrb; unfold val; cbn [rsum push];
    rewrite (rsum_zero k _) by (intros; apply Rmult_0_r); rewrite Rmult_1_r, Rplus_0_r; apply MX; exact Hrb)
    O ltac:(lia)).
  cbn [push] in Q; rewrite Rabs_R1 in Q; lra.
Qed.

(** What [step_row] says, without the numbers. *)
Definition stepped (k : nat) (m : R) (piv a a' : vec f64) : Prop :=
  exists cc : R, Rabs cc <= 1 + 4 * u53 /\ Rabs (ent a 0 - cc * ent piv 0) <= 4 * u53 * Rabs (ent piv 0) /\
  forall j, (j < k)%nat -> Rabs (ent a' j - (ent a (S j) - cc * ent piv (S j))) <= 5 * u53 * m.

Lemma below_step k m c (rows rows' rest : list (vec f64 * vec f64)) (piv b : vec f64) :
  below (S k) rows c -> 0 <= m -> ent piv 0 <> 0 -> length piv = S k ->
  (forall j, (j < S k)%nat -> Rabs (ent piv j) <= m) ->
  (forall rb, In rb rows <-> rb = (piv, b) \/ In rb rest) ->
  (forall rb, In rb rest -> length (fst rb) = S k /\ exists rb', In rb' rows' /\ stepped k m piv (fst rb) (fst rb')) ->
  0 <= c - 9 * u53 * INR k * m -> below k rows' (c - 9 * u53 * INR k * m).
Proof.
  intros HB PM NP LP BP HR HS HC y t Pt HT i Hi.
  pose proof u53_small as HU.
  destruct (PropsFloat.largest k y ltac:(lia)) as (i0 & Hi0 & LG).
  set (ym := Rabs (y i0)) in *.
  assert (Pm : 0 <= ym) by apply Rabs_pos.
  set (py := rsum k (fun j => ent piv (S j) * y j)).
  assert (BPY : Rabs py <= INR k * (m * ym)).
  { apply rsum_bound; intros j Hj; rewrite Rabs_mult.
    apply Rmult_le_compat; try apply Rabs_pos; [apply BP; lia|apply LG; exact Hj]. }
  assert (Pk : 0 <= INR k) by apply pos_INR.
  assert (Pkm : 0 <= INR k * (m * ym)) by (apply Rmult_le_pos; [exact Pk|apply Rmult_le_pos; assumption]).
  assert (Q : c * Rabs (push (- py / ent piv 0) y (S i0)) <= t + 9 * u53 * INR k * m * ym).
  { apply HB; [apply Rplus_le_le_0_compat; [exact Pt|]|intros rb Hrb|lia].
    { replace (9 * u53 * INR k * m * ym) with (9 * u53 * (INR k * (m * ym))) by ring.
      apply Rmult_le_pos; lra. }
    apply HR in Hrb; destruct Hrb as [->|Hrb].
    - cbn [fst]; rewrite val_push by exact LP; fold py.
      replace (ent piv 0 * (- py / ent piv 0) + py) with 0 by (field; exact NP).
      rewrite Rabs_R0; replace (9 * u53 * INR k * m * ym) with (9 * u53 * (INR k * (m * ym))) by ring.
      assert (0 <= 9 * u53 * (INR k * (m * ym))) by (apply Rmult_le_pos; lra); lra.
    - destruct (HS rb Hrb) as (La & rb' & Hin & cc & BC & EC & EJ).
      rewrite val_push by exact La.
      specialize (HT rb' Hin); unfold val in HT.
      set (a := fst rb) in *; set (a' := fst rb') in *.
      set (eps := fun j => ent a' j - (ent a (S j) - cc * ent piv (S j))) in *.
      assert (ES : rsum k (fun j => ent a (S j) * y j)
        = rsum k (fun j => ent a' j * y j) + cc * py - rsum k (fun j => eps j * y j)).
      { unfold py; rewrite <- rsum_scal_l, <- rsum_plus, <- rsum_minus; apply rsum_ext; intros j Hj; unfold eps; ring. }
      rewrite ES.
      assert (BE : Rabs (rsum k (fun j => eps j * y j)) <= INR k * (5 * u53 * m * ym)).
      { apply rsum_bound; intros j Hj; rewrite Rabs_mult.
        apply Rmult_le_compat; try apply Rabs_pos; [apply EJ; exact Hj|apply LG; exact Hj]. }
      replace (ent a 0 * (- py / ent piv 0) + (rsum k (fun j => ent a' j * y j) + cc * py - rsum k (fun j => eps j * y j)))
        with ((ent a 0 - cc * ent piv 0) * (- py / ent piv 0) + rsum k (fun j => ent a' j * y j)
              - rsum k (fun j => eps j * y j)) by (field; exact NP).
      assert (BD : Rabs ((ent a 0 - cc * ent piv 0) * (- py / ent piv 0)) <= 4 * u53 * (INR k * (m * ym))).
      { rewrite Rabs_mult.
        apply Rle_trans with (4 * u53 * Rabs (ent piv 0) * Rabs (- py / ent piv 0)).
        - apply Rmult_le_compat_r; [apply Rabs_pos|exact EC].
        - rewrite Rmult_assoc, <- Rabs_mult.
          replace (ent piv 0 * (- py / ent piv 0)) with (- py) by (field; exact NP).
          rewrite Rabs_Ropp; apply Rmult_le_compat_l; lra. }
      unfold Rminus at 1; eapply Rle_trans; [apply Rabs_triang|]; rewrite Rabs_Ropp.
      eapply Rle_trans; [apply Rplus_le_compat_r, Rabs_triang|].
      replace (9 * u53 * INR k * m * ym) with (4 * u53 * (INR k * (m * ym)) + INR k * (5 * u53 * m * ym)) by ring.
      lra. }
  cbn [push] in Q; fold ym in Q.
  apply Rle_trans with ((c - 9 * u53 * INR k * m) * ym); [apply Rmult_le_compat_l; [exact HC|apply LG; exact Hi]|].
  lra.
Qed.

(** ** The whole inversion *)
Section Lu.
Context (N w : nat) (Mx Dx c0 : R).
Let Y := 2 * Dx / c0.
Let W := Dx + INR N * (Mx * Y).
Let rho1 := 20 * INR N * u53 * W.
Context (C0 : lo <= c0) (CM : 0 <= Mx <= hi) (CD : 1 <= Dx <= hi) (CN : (1 <= N)%nat) (CS : INR N * rho1 <= Dx).

Lemma lu_numbers : 0 <= Y /\ 1 <= W /\ Dx <= W /\ INR N * u53 <= / 20 /\ W * 20 * u53 <= hi /\ W <= huge /\
  1 <= INR N /\ 0 <= rho1 /\ 2 * W * hi <= 4 * huge.
Proof.
  pose proof u53_small as HU; destruct lo_hi as (P1 & P2 & P3); destruct sizes as (S1 & S2 & S3 & S4).
  assert (HN : 1 <= INR N) by (apply (le_INR 1); exact CN).
  assert (PY : 0 <= Y) by (unfold Y; apply Rmult_le_pos; [lra|left; apply Rinv_0_lt_compat; lra]).
  assert (PW : Dx <= W).
  { unfold W; assert (0 <= INR N * (Mx * Y)) by (apply Rmult_le_pos; [lra|apply Rmult_le_pos; lra]); lra. }
  assert (E1 : INR N * rho1 = (20 * u53 * W) * (INR N * INR N)) by (unfold rho1; ring).
  assert (NN : INR N <= INR N * INR N) by nra.
  assert (PU : 0 <= 20 * u53 * W) by (apply Rmult_le_pos; lra).
  assert (E2 : 20 * u53 * W * INR N <= Dx).
  { rewrite E1 in CS; apply Rle_trans with (2 := CS); apply Rmult_le_compat_l; assumption. }
  assert (E3 : 20 * u53 * Dx * INR N <= Dx).
  { apply Rle_trans with (2 := E2); apply Rmult_le_compat_r; [lra|]; apply Rmult_le_compat_l; lra. }
  assert (E4 : 20 * (INR N * u53) <= 1).
  { apply Rmult_le_reg_r with Dx; [lra|]; rewrite Rmult_1_l.
    replace (20 * (INR N * u53) * Dx) with (20 * u53 * Dx * INR N) by ring; exact E3. }
  assert (E5 : W * 20 * u53 <= hi).
  { apply Rle_trans with (20 * u53 * W * INR N); [|lra].
    rewrite <- (Rmult_1_r (W * 20 * u53)).
    replace (20 * u53 * W * INR N) with (W * 20 * u53 * INR N) by ring.
    apply Rmult_le_compat_l; lra. }
  assert (E6 : 2 * W * hi <= 4 * huge).
  { apply Rmult_le_reg_r with u53; [lra|].
    apply Rle_trans with (hi * hi * 8); [|lra].
    assert (W * 20 * u53 * hi <= hi * hi) by (apply Rmult_le_compat_r; lra).
    assert (0 <= hi * hi) by nra.
    replace (2 * W * hi * u53) with (W * 20 * u53 * hi / 10) by field; lra. }
  assert (E7 : W <= huge) by nra.
  assert (0 <= rho1) by (unfold rho1; apply Rmult_le_pos; [apply Rmult_le_pos|]; nra).
  repeat split; try assumption; lra.
Qed.

Lemma pow_ge_1 k : 1 <= (9 / 4) ^ k.
Proof. induction k; cbn [pow]; lra. Qed.

Lemma lu_float : forall k rows m D c, (k <= N)%nat -> fine k w m D rows -> below k rows c -> lo <= m -> 1 <= D ->
  m * (9 / 4) ^ k <= Mx -> D * (9 / 4) ^ k <= Dx -> c0 + INR k * (9 * u53 * INR N * Mx) <= c ->
  exists u, lu_forward k rows = Some u /\ solves k w rows (lu_backward u) (INR k * rho1) Y.
Proof using C0 CM CD CN CS.
  pose proof u53_small as HU; destruct lo_hi as (P1 & P2 & P3); destruct sizes as (S1 & S2 & S3 & S4).
  destruct lu_numbers as (PY & PW & DW & NU & WU & WH & HN & PR & WD).
  pose proof tiny_pos as HT; pose proof huge_big as HH.
  induction k as [|k IH]; intros rows m D c HK FR HB LM LD GM GD HC.
  { exists []; split; [reflexivity|]; destruct FR as (L & _).
    split; [reflexivity|]; split; [intros r []|]; split; [intros; lia|].
    destruct rows; [intros rb []|discriminate]. }
  destruct (pivot_float k w m D rows FR) as (piv & b & rest & ES & LR & HIN & MX).
  assert (PG := pow_ge_1 k); cbn [pow] in GM, GD.
  assert (LM9 : lo <= 9 / 4 * m) by lra.
  assert (BM : 9 / 4 * m <= Mx) by nra.
  assert (BD : 9 / 4 * D <= Dx) by nra.
  assert (Pm : 0 < m) by lra.
  assert (HKN : INR (S k) <= INR N) by (apply le_INR; exact HK).
  assert (Pk : 0 <= INR k) by apply pos_INR.
  assert (SK := S_INR k).
  set (dc := 9 * u53 * INR N * Mx) in *.
  assert (Pdc : 0 <= dc) by (unfold dc; apply Rmult_le_pos; nra).
  assert (HC0 : c0 <= c) by (assert (0 <= INR (S k) * dc) by (apply Rmult_le_pos; [apply pos_INR|exact Pdc]); lra).
  assert (PV := pivot_below k rows piv c HB MX).
  assert (LO : lo <= Rabs (ent piv 0)) by lra.
  assert (NP : ent piv 0 <> 0) by (intros Z; rewrite Z, Rabs_R0 in LO; lra).
  destruct (proj2 FR (piv, b) (proj2 (HIN (piv, b)) (or_introl eq_refl))) as (Lp & Lb & Fp & Fb); cbn [fst snd] in Lp, Lb, Fp, Fb.
  assert (ST : forall rb, In rb rest ->
    length (fst rb) = S k /\
    length (fst (lu_step64 piv b rb)) = k /\ length (snd (lu_step64 piv b rb)) = w /\
    exists cc : R, Rabs cc <= 1 + 4 * u53 /\ Rabs (ent (fst rb) 0 - cc * ent piv 0) <= 4 * u53 * Rabs (ent piv 0) /\
    (forall j, (j < k)%nat -> isfin (nth j (fst (lu_step64 piv b rb)) n0) = true /\ Rabs (ent (fst (lu_step64 piv b rb)) j) <= 9 / 4 * m /\
       Rabs (ent (fst (lu_step64 piv b rb)) j - (ent (fst rb) (S j) - cc * ent piv (S j))) <= 5 * u53 * m) /\
    (forall j, (j < w)%nat -> isfin (nth j (snd (lu_step64 piv b rb)) n0) = true /\ Rabs (ent (snd (lu_step64 piv b rb)) j) <= 9 / 4 * D /\
       Rabs (ent (snd (lu_step64 piv b rb)) j - (ent (snd rb) j - cc * ent b j)) <= 5 * u53 * D)).
  { intros rb Hrb; assert (Hr : In rb rows) by (apply HIN; right; exact Hrb).
    destruct (proj2 FR rb Hr) as (La & Lr & Fa & Fr); split; [exact La|].
    assert (lo <= 1) by nra.
    apply (step_row k w m D piv b rb); try assumption; [lra|lra|apply MX; exact Hr]. }
  set (rows' := map (lu_step64 piv b) rest) in *.
  assert (FR' : fine k w (9 / 4 * m) (9 / 4 * D) rows').
  { split; [unfold rows'; rewrite map_length; exact LR|].
    intros rb' Hrb'; apply in_map_iff in Hrb'; destruct Hrb' as (rb & <- & Hrb).
    destruct (ST rb Hrb) as (_ & L1 & L2 & cc & _ & _ & Ea & Eb).
    split; [exact L1|]; split; [exact L2|]; split; intros j Hj.
    - destruct (Ea j Hj) as (Q1 & Q2 & _); split; assumption.
    - destruct (Eb j Hj) as (Q1 & Q2 & _); split; assumption. }
  assert (DC : 9 * u53 * INR k * m <= dc).
  { unfold dc; apply Rmult_le_compat; try lra; [apply Rmult_le_pos; lra|].
    apply Rmult_le_compat_l; lra. }
  assert (HB' : below k rows' (c - 9 * u53 * INR k * m)).
  { apply (below_step k m c rows rows' rest piv b); try assumption; try lra.
    - intros j Hj; apply Fp; exact Hj.
    - intros rb Hrb; destruct (ST rb Hrb) as (La & _ & _ & cc & Q1 & Q2 & Q3 & _).
      split; [exact La|]; exists (lu_step64 piv b rb); split; [apply in_map; exact Hrb|].
      exists cc; split; [exact Q1|]; split; [exact Q2|]; intros j Hj; apply Q3; exact Hj.
    - rewrite SK in HC; assert (0 <= INR k * dc) by (apply Rmult_le_pos; assumption); lra. }
  destruct (IH rows' (9 / 4 * m) (9 / 4 * D) (c - 9 * u53 * INR k * m)) as (u & EU & LX & LXr & FX & RX);
    try assumption; try lia; try lra.
  { rewrite SK in HC; lra. }
  exists ((piv, b) :: u); split.
  { rewrite lu_forward_S64; cbv zeta; fold f64 in *.
    replace (swap_rows rows (icamax (map (fun rb => hd n0 (fst rb)) rows))) with ((piv, b) :: rest).
    assert (Z : neqb (hd n0 piv) n0 = false).
    { destruct (neqb (hd n0 piv) n0) eqn:Z; [|reflexivity]; exfalso; apply NP.
      rewrite hd_nth in Z; apply eqb_key in Z; [|apply fin_not_nan, Fp; lia|reflexivity].
      unfold ent; etransitivity; [exact Z|]. rewrite key_fin; reflexivity. }
    rewrite Z; fold rows'; rewrite EU; reflexivity. }
  rewrite lu_backward_cons64.
  set (X := lu_backward u) in *; clearbody X.
  set (d := hd n0 piv).
  assert (ED : d = nth 0 piv n0) by apply hd_nth.
  assert (KD : key d = ent piv 0) by (rewrite ED; reflexivity).
  assert (FD : isfin d = true) by (rewrite ED; apply Fp; lia).
  set (acc := fold_right (fun (ux : f64 * vec f64) (acc : vec f64) => axpy (nneg (fst ux)) (snd ux) acc) b (combine (tl piv) X)).
  assert (LT : length (tl piv) = k) by (apply tl_length; exact Lp).
  assert (LA : length acc = w) by (apply back_length; [exact Lb|congruence|exact LXr]).
  assert (RO : forall j, (j < w)%nat -> isfin (ndiv (nth j acc n0) d) = true /\
    Rabs (ent piv 0 * key (ndiv (nth j acc n0) d) + rsum k (fun i => ent piv (S i) * mentf X i j) - ent b j)
      <= 5 * INR (S k) * u53 * W /\
    Rabs (ent piv 0 * key (ndiv (nth j acc n0) d)) <= 1.3 * W).
  { intros j Hj.
    assert (EA := back_nth w (tl piv) X b j Lb ltac:(congruence) LXr Hj); fold acc in EA.
    set (xc := map (fun r => nth j r n0) X) in *.
    assert (LC : length (tl piv) = length xc) by (unfold xc; rewrite map_length; congruence).
    assert (XC : forall i, (i < k)%nat -> nth i xc n0 = nth j (nth i X []) n0).
    { intros i Hi; unfold xc.
      rewrite (nth_indep _ n0 ((fun r : vec f64 => nth j r n0) [])) by (rewrite map_length; lia).
      apply (map_nth (fun r : vec f64 => nth j r n0)). }
    assert (TS : rsum (length (tl piv)) (fun i => ent (tl piv) i * ent xc i) = rsum k (fun i => ent piv (S i) * mentf X i j)).
    { rewrite LT; apply rsum_ext; intros i Hi; unfold ent, mentf; rewrite tl_nth, XC by exact Hi; reflexivity. }
    assert (TA : rsum (length (tl piv)) (fun i => Rabs (ent (tl piv) i * ent xc i)) <= INR k * (m * Y)).
    { rewrite LT, <- rsum_const; apply LocalFacts.rsum_le; intros i Hi.
      unfold ent at 2; rewrite XC by exact Hi; unfold ent; rewrite tl_nth, Rabs_mult.
      apply Rmult_le_compat; try apply Rabs_pos; [apply Fp; lia|apply (FX i j Hi Hj)]. }
    assert (KY : INR k * (m * Y) <= INR N * (Mx * Y)).
    { apply Rmult_le_compat; try lra; [apply Rmult_le_pos; lra|apply Rmult_le_compat_r; lra]. }
    destruct (Fb j Hj) as (Fbj & Bbj).
    destruct (back_error W (tl piv) xc (nth j b n0) LC) as (FA & EAA).
    { intros i Hi; rewrite LT in Hi; rewrite tl_nth, XC by exact Hi; split; [apply Fp; lia|apply (FX i j Hi Hj)]. }
    { exact Fbj. }
    { lra. }
    { unfold ent in Bbj; unfold W; lra. }
    { rewrite LT; apply Rle_trans with (INR N * u53); [apply Rmult_le_compat_r; lra|lra]. }
    rewrite <- EA in FA, EAA; rewrite TS in EAA; rewrite LT in EAA, TA.
    set (ac := nth j acc n0) in *; clearbody ac.
    set (T := rsum k (fun i => ent piv (S i) * mentf X i j)) in *.
    assert (BT : Rabs T <= INR k * (m * Y)).
    { unfold T; apply rsum_bound; intros i Hi; rewrite Rabs_mult.
      apply Rmult_le_compat; try apply Rabs_pos; [apply Fp; lia|apply (FX i j Hi Hj)]. }
    change (key (nth j b n0)) with (ent b j) in EAA.
    assert (TW : tiny <= u53 * W / 1024) by (assert (u53 * 1 <= u53 * W) by (apply Rmult_le_compat_l; lra); lra).
    assert (UW : 0 <= u53 * W) by (apply Rmult_le_pos; lra).
    assert (E1 : Rabs (key ac - (ent b j - T)) <= 4.01 * INR k * (u53 * W)).
    { eapply Rle_trans; [exact EAA|].
      replace (4.01 * INR k * (u53 * W)) with (4 * INR k * (1.0025 * (u53 * W))) by lra.
      apply Rmult_le_compat_l; lra. }
    assert (KW : INR k * (u53 * W) <= / 20 * W).
    { rewrite <- Rmult_assoc; apply Rmult_le_compat_r; [lra|].
      apply Rle_trans with (INR N * u53); [apply Rmult_le_compat_r; lra|exact NU]. }
    assert (B1 : Rabs (ent b j - T) <= W).
    { unfold Rminus; eapply Rle_trans; [apply Rabs_triang|]; rewrite Rabs_Ropp; unfold W; lra. }
    assert (B2 : Rabs (key ac) <= 1.25 * W) by (pose proof (Rabs_triang_inv (key ac) (ent b j - T)); lra).
    assert (NKD : key d <> 0) by (rewrite KD; exact NP).
    set (dd := Rabs (key d)) in *.
    assert (PDD : lo <= dd) by (unfold dd; rewrite KD; exact LO).
    assert (UDD : dd <= hi) by (unfold dd; rewrite KD; destruct (Fp O ltac:(lia)); lra).
    assert (IU : / dd <= hi).
    { apply Rmult_le_reg_l with dd; [lra|]; rewrite Rinv_r by lra; rewrite <- P3; apply Rmult_le_compat_r; lra. }
    assert (B3 : Rabs (key ac / key d) <= 4 * huge).
    { unfold Rdiv; rewrite Rabs_mult, Rabs_inv; fold dd.
      apply Rle_trans with (2 * W * hi); [|exact WD].
      apply Rmult_le_compat; [apply Rabs_pos|left; apply Rinv_0_lt_compat; lra|lra|exact IU]. }
    destruct (rounded (key ac / key d) (ndiv ac d) (div_fin ac d FA FD NKD) B3) as (FQ & EQ).
    set (x0 := ndiv ac d) in *; clearbody x0.
    assert (E2 : Rabs (key d * key x0 - key ac) <= 1.3 * (u53 * W)).
    { replace (key d * key x0 - key ac) with (key d * (key x0 - key ac / key d)) by (field; exact NKD).
      rewrite Rabs_mult; fold dd.
      apply Rle_trans with (dd * (u53 * Rabs (key ac / key d) + tiny)); [apply Rmult_le_compat_l; lra|].
      rewrite Rmult_plus_distr_l.
      replace (dd * (u53 * Rabs (key ac / key d))) with (u53 * Rabs (key ac)).
      2:{ unfold Rdiv; rewrite Rabs_mult, Rabs_inv; fold dd; field; lra. }
      assert (u53 * Rabs (key ac) <= u53 * (1.25 * W)) by (apply Rmult_le_compat_l; lra).
      assert (dd * tiny <= tiny * hi) by (rewrite Rmult_comm; apply Rmult_le_compat_l; lra).
      assert (lo <= / 1024).
      { replace (/ 1024) with (bpow radix2 (-10)) by (cbn; lra); apply bpow_le; lia. }
      assert (u53 * lo <= u53 * (W / 1024)) by (apply Rmult_le_compat_l; lra).
      lra. }
    rewrite KD in *.
    split; [exact FQ|]; split.
    - replace (ent piv 0 * key x0 + T - ent b j)
        with ((ent piv 0 * key x0 - key ac) + (key ac - (ent b j - T))) by ring.
      eapply Rle_trans; [apply Rabs_triang|].
      rewrite SK; replace (5 * (INR k + 1) * u53 * W) with (5 * (INR k * (u53 * W)) + 5 * (u53 * W)) by ring.
      assert (0 <= INR k * (u53 * W)) by (apply Rmult_le_pos; assumption); lra.
    - pose proof (Rabs_triang_inv (ent piv 0 * key x0) (key ac)).
      assert (u53 * W <= / 1024 * W) by (apply Rmult_le_compat_r; lra); lra. }
  set (X1 := vdiv acc d :: X).
  assert (NX : forall j, (j < w)%nat -> nth j (nth 0 X1 []) n0 = ndiv (nth j acc n0) d).
  { intros j Hj; change (nth 0 X1 []) with (map (fun x => ndiv x d) acc).
    rewrite (nth_indep _ n0 ((fun x => ndiv x d) n0)) by (rewrite map_length; lia).
    apply (map_nth (fun x => ndiv x d)). }
  assert (RES : forall rb, In rb rows -> forall j, (j < w)%nat ->
    Rabs (val (S k) (fst rb) (fun i => mentf X1 i j) - ent (snd rb) j) <= INR (S k) * rho1).
  { assert (UW : 0 <= u53 * W) by (apply Rmult_le_pos; lra).
    assert (R1 : 16 * INR (S k) * u53 * W <= rho1).
    { unfold rho1.
      replace (16 * INR (S k) * u53 * W) with (16 * (INR (S k) * (u53 * W))) by ring.
      replace (20 * INR N * u53 * W) with (20 * (INR N * (u53 * W))) by ring.
      assert (INR (S k) * (u53 * W) <= INR N * (u53 * W)) by (apply Rmult_le_compat_r; lra).
      assert (0 <= INR N * (u53 * W)) by (apply Rmult_le_pos; lra); lra. }
    assert (KU : INR (S k) * rho1 = INR k * rho1 + rho1) by (rewrite SK; ring).
    assert (KR : 0 <= INR k * rho1) by (apply Rmult_le_pos; assumption).
    assert (SU : INR (S k) * u53 * W = INR k * (u53 * W) + u53 * W) by (rewrite SK; ring).
    assert (0 <= INR k * (u53 * W)) by (apply Rmult_le_pos; assumption).
    intros rb Hrb j Hj; destruct (RO j Hj) as (_ & R0 & RD).
    set (x0 := ndiv (nth j acc n0) d) in *.
    assert (EV : val (S k) (fst rb) (fun i => mentf X1 i j)
      = ent (fst rb) 0 * key x0 + rsum k (fun i => ent (fst rb) (S i) * mentf X i j)).
    { unfold val; cbn [rsum]; f_equal; f_equal; unfold mentf at 1; rewrite NX by exact Hj; reflexivity. }
    rewrite EV; clear EV.
    apply HIN in Hrb; destruct Hrb as [->|Hrb]; cbn [fst snd].
    { lra. }
    destruct (ST rb Hrb) as (_ & _ & _ & cc & BC & EC & Ea & Eb).
    assert (RX' := RX (lu_step64 piv b rb) (in_map _ _ _ Hrb) j Hj); unfold val in RX'.
    set (rb' := lu_step64 piv b rb) in *.
    set (T := rsum k (fun i => ent piv (S i) * mentf X i j)) in *.
    set (T' := rsum k (fun i => ent (fst rb') i * mentf X i j)) in *.
    set (eps := fun i => ent (fst rb') i - (ent (fst rb) (S i) - cc * ent piv (S i))) in *.
    assert (ET : rsum k (fun i => ent (fst rb) (S i) * mentf X i j)
      = T' + cc * T - rsum k (fun i => eps i * mentf X i j)).
    { unfold T, T'; rewrite <- rsum_scal_l, <- rsum_plus, <- rsum_minus; apply rsum_ext; intros i Hi; unfold eps; ring. }
    rewrite ET.
    assert (BE : Rabs (rsum k (fun i => eps i * mentf X i j)) <= INR k * (5 * u53 * m * Y)).
    { apply rsum_bound; intros i Hi; rewrite Rabs_mult.
      apply Rmult_le_compat; try apply Rabs_pos; [apply Ea; exact Hi|apply (FX i j Hi Hj)]. }
    destruct (Eb j Hj) as (_ & _ & EB).
    set (eb := ent (snd rb') j - (ent (snd rb) j - cc * ent b j)) in *.
    set (r0 := ent piv 0 * key x0 + T - ent b j) in *.
    replace (ent (fst rb) 0 * key x0 + (T' + cc * T - rsum k (fun i => eps i * mentf X i j)) - ent (snd rb) j)
      with ((T' - ent (snd rb') j) + (cc * r0 + ((ent (fst rb) 0 - cc * ent piv 0) * key x0
            + (eb - rsum k (fun i => eps i * mentf X i j))))) by (unfold r0, eb; ring).
    assert (B1 : Rabs (cc * r0) <= 1.01 * (5 * INR (S k) * u53 * W)).
    { rewrite Rabs_mult; apply Rmult_le_compat; try apply Rabs_pos; lra. }
    assert (B2 : Rabs ((ent (fst rb) 0 - cc * ent piv 0) * key x0) <= 4 * u53 * (1.3 * W)).
    { rewrite Rabs_mult.
      apply Rle_trans with (4 * u53 * Rabs (ent piv 0) * Rabs (key x0)).
      - apply Rmult_le_compat_r; [apply Rabs_pos|exact EC].
      - rewrite Rmult_assoc, <- Rabs_mult; apply Rmult_le_compat_l; lra. }
    assert (B3 : INR k * (5 * u53 * m * Y) + 5 * u53 * D <= 5 * (u53 * W)).
    { replace (INR k * (5 * u53 * m * Y) + 5 * u53 * D) with (5 * (u53 * (INR k * (m * Y) + D))) by ring.
      apply Rmult_le_compat_l; [lra|]; apply Rmult_le_compat_l; [lra|].
      assert (INR k * (m * Y) <= INR N * (Mx * Y)).
      { apply Rmult_le_compat; try lra; [apply Rmult_le_pos; lra|apply Rmult_le_compat_r; lra]. }
      unfold W; lra. }
    assert (B4 : Rabs (eb - rsum k (fun i => eps i * mentf X i j)) <= 5 * (u53 * W)).
    { unfold Rminus; eapply Rle_trans; [apply Rabs_triang|]; rewrite Rabs_Ropp; lra. }
    eapply Rle_trans; [apply Rabs_triang|]; eapply Rle_trans; [apply Rplus_le_compat_l, Rabs_triang|].
    assert (Q := Rabs_triang ((ent (fst rb) 0 - cc * ent piv 0) * key x0) (eb - rsum k (fun i => eps i * mentf X i j))).
    assert (1.01 * (5 * INR (S k) * u53 * W) = 5.05 * (INR (S k) * u53 * W)) by lra.
    lra. }
  split; [cbn [length X1]; rewrite LX; reflexivity|].
  split.
  { intros r [<-|Hr]; [|apply LXr; exact Hr].
    unfold vdiv; rewrite map_length; exact LA. }
  split; [|exact RES].
  intros i j Hi Hj; split.
  { destruct i as [|i]; [rewrite NX by exact Hj; apply RO; exact Hj|apply (FX i j ltac:(lia) Hj)]. }
  assert (Q := HB (fun i => mentf X1 i j) (D + INR (S k) * rho1)).
  assert (KR : 0 <= INR (S k) * rho1) by (apply Rmult_le_pos; [apply pos_INR|exact PR]).
  specialize (Q ltac:(lra)).
  specialize (Q ltac:(intros rb Hrb; destruct (proj2 FR rb Hrb) as (_ & _ & _ & Fr); destruct (Fr j Hj) as (_ & Br);
    pose proof (RES rb Hrb j Hj); pose proof (Rabs_triang_inv (val (S k) (fst rb) (fun i => mentf X1 i j)) (ent (snd rb) j)); lra) i Hi).
  cbv beta in Q.
  assert (KN : INR (S k) * rho1 <= INR N * rho1) by (apply Rmult_le_compat_r; lra).
  unfold Y; apply Rmult_le_reg_r with c0; [lra|].
  replace (2 * Dx / c0 * c0) with (2 * Dx) by (field; lra).
  apply Rle_trans with (c * Rabs (mentf X1 i j)); [rewrite Rmult_comm; apply Rmult_le_compat_r; [apply Rabs_pos|exact HC0]|lra].
Qed.
End Lu.
