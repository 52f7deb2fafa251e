(** C82: the numbers of the log are as short as possible. *)
From Coq Require Import Reals Ascii Lia NArith Lra.
From Flocq Require Import Core BinarySingleNaN.
From Verif Require Import Base Num F64 Text Display PropsNumbers PropsAlign.
Close Scope R_scope.
Open Scope nat_scope.
Open Scope string_scope.

(** ** Significant digits *)
Fixpoint drop_zeros (ds : list N) : list N :=
  match ds with 0%N :: ds' => drop_zeros ds' | _ => ds end.
(** How many digits are left without the zeros at both ends. *)
Definition significant (ds : list N) : nat := length (drop_zeros (rev (drop_zeros ds))).

Notation rnd := (round radix2 (SpecFloat.fexp 53 1024) ZnearestE).
Notation ten := (fun q : Z => powerRZ 10 q).

(** ** Values of digits *)
Lemma value_snoc ds d : value (ds ++ [d])%list = (10 * value ds + d)%N.
Proof. unfold value; rewrite fold_left_app; reflexivity. Qed.
Lemma fold_value ds : forall a, fold_left (fun a d => 10 * a + d)%N ds a = (a * 10 ^ N.of_nat (length ds) + value ds)%N.
Proof.
  induction ds as [|d ds IH] using rev_ind; intros a; [cbn; lia|].
  rewrite fold_left_app, value_snoc, app_length; cbn [fold_left length]; rewrite IH.
  rewrite Nat.add_1_r, Nnat.Nat2N.inj_succ, N.pow_succ_r'; lia.
Qed.
Lemma value_cons d ds : value (d :: ds) = (d * 10 ^ N.of_nat (length ds) + value ds)%N.
Proof. unfold value at 1; cbn [fold_left]; rewrite fold_value; f_equal; lia. Qed.
Lemma value_app a b : value (a ++ b)%list = (value a * 10 ^ N.of_nat (length b) + value b)%N.
Proof. rewrite <- fold_app; apply fold_value. Qed.
Lemma value_lt ds : are_digits ds -> (value ds < 10 ^ N.of_nat (length ds))%N.
Proof.
  induction 1 as [|d ds Hd _ IH]; [cbn; lia|].
  rewrite value_cons; cbn [length]; rewrite Nnat.Nat2N.inj_succ, N.pow_succ_r'; nia.
Qed.
Lemma drop_zeros_value ds : value (drop_zeros ds) = value ds.
Proof.
  induction ds as [|[|p] ds IH]; [reflexivity| |reflexivity]; cbn [drop_zeros]; rewrite IH, value_cons; lia.
Qed.
Lemma drop_zeros_digits ds : are_digits ds -> are_digits (drop_zeros ds).
Proof. induction 1 as [|[|p] ds Hd H IH]; cbn [drop_zeros]; [constructor|exact IH|constructor; assumption]. Qed.
Lemma drop_zeros_split ds : exists j, ds = (repeat 0%N j ++ drop_zeros ds)%list.
Proof.
  induction ds as [|[|p] ds [j IH]]; [exists 0; reflexivity| |exists 0; reflexivity].
  exists (S j); cbn [drop_zeros repeat List.app]; rewrite <- IH; reflexivity.
Qed.
Lemma drop_zeros_head ds : match drop_zeros ds with 0%N :: _ => False | _ => True end.
Proof. induction ds as [|[|p] ds IH]; cbn [drop_zeros]; auto. Qed.
Lemma value_zeros j : value (repeat 0%N j) = 0%N.
Proof. induction j as [|j IH]; [reflexivity|]; cbn [repeat]; rewrite value_cons, IH; lia. Qed.

(** The significant digits and the power of ten that is left. *)
Lemma significant_split ds : are_digits ds -> exists d j, value ds = (d * 10 ^ N.of_nat j)%N /\
  (d < 10 ^ N.of_nat (significant ds))%N /\ j <= length ds.
Proof.
  intros A; unfold significant; destruct (drop_zeros_split (rev (drop_zeros ds))) as [j E].
  set (t := drop_zeros (rev (drop_zeros ds))) in *.
  assert (E' : drop_zeros ds = (rev t ++ repeat 0%N j)%list).
  { rewrite <- (rev_involutive (drop_zeros ds)), E, rev_app_distr; f_equal.
    clear; induction j as [|j IH]; [reflexivity|]; cbn [repeat rev]; rewrite IH.
    clear; induction j as [|j IH]; [reflexivity|]; cbn [repeat List.app]; rewrite IH; reflexivity. }
  exists (value (rev t)), j; repeat split.
  - rewrite <- drop_zeros_value, E', value_app, value_zeros, repeat_length; lia.
  - rewrite <- rev_length; apply value_lt.
    assert (D := drop_zeros_digits _ A); rewrite E' in D; apply Forall_app in D; apply D.
  - destruct (drop_zeros_split ds) as [i Ei]; rewrite Ei, E', !app_length, !repeat_length; lia.
Qed.
Lemma significant_least ds d j n : are_digits ds -> value ds = (d * 10 ^ N.of_nat j)%N -> (d < 10 ^ N.of_nat n)%N ->
  significant ds <= n.
Proof.
  intros A V D; unfold significant; destruct (drop_zeros_split (rev (drop_zeros ds))) as [i E].
  assert (H := drop_zeros_head (rev (drop_zeros ds))).
  assert (H' := drop_zeros_head ds).
  assert (A' := drop_zeros_digits _ A); rewrite <- drop_zeros_value in V.
  set (t := drop_zeros (rev (drop_zeros ds))) in *.
  assert (E' : drop_zeros ds = (rev t ++ repeat 0%N i)%list).
  { rewrite <- (rev_involutive (drop_zeros ds)), E, rev_app_distr; f_equal.
    clear; induction i as [|i IH]; [reflexivity|]; cbn [repeat rev]; rewrite IH.
    clear; induction i as [|i IH]; [reflexivity|]; cbn [repeat List.app]; rewrite IH; reflexivity. }
  clearbody t; rewrite E' in *; clear E E'; rewrite value_app, value_zeros, repeat_length in V.
  destruct t as [|l t]; [cbn; lia|].
  apply Forall_app in A'; destruct A' as [A' _]; cbn [rev] in *.
  rewrite value_snoc in V.
  assert (Ll : (0 < l < 10)%N).
  { apply Forall_app in A'; destruct A' as [_ A']; inversion A'; subst; destruct l; [destruct H|lia]. }
  (* the last digit is not zero, so that at least [i] powers of ten are outside *)
  assert (J : j <= i).
  { destruct (Nat.le_gt_cases j i) as [J|J]; [exact J|exfalso].
    replace j with (i + S (j - i - 1)) in V by lia.
    rewrite Nnat.Nat2N.inj_add, N.pow_add_r, Nnat.Nat2N.inj_succ, N.pow_succ_r' in V.
    assert (P : (0 < 10 ^ N.of_nat i)%N) by (apply N.neq_0_lt_0, N.pow_nonzero; discriminate).
    assert (V' : (10 * value (rev t) + l = d * (10 * 10 ^ N.of_nat (j - i - 1)))%N).
    { apply (N.mul_cancel_r _ _ (10 ^ N.of_nat i)); [lia|]; rewrite N.add_0_r in V; rewrite V; ring. }
    assert (M : ((10 * value (rev t) + l) mod 10 = l)%N) by (rewrite N.add_comm, N.mul_comm, N.mod_add, N.mod_small by lia; reflexivity).
    rewrite V' in M; replace (d * (10 * 10 ^ N.of_nat (j - i - 1)))%N with (d * 10 ^ N.of_nat (j - i - 1) * 10)%N in M by ring.
    rewrite N.mod_mul in M by discriminate; lia. }
  (* the first digit is not zero, so that the number is large *)
  assert (G : (10 ^ N.of_nat (length t) <= 10 * value (rev t) + l)%N).
  { destruct (rev t) as [|f r] eqn:R.
    - assert (t = []) as -> by (rewrite <- (rev_involutive t), R; reflexivity); cbn; lia.
    - assert (L : length t = S (length r)) by (rewrite <- rev_length, R; reflexivity).
      rewrite L, Nnat.Nat2N.inj_succ, N.pow_succ_r', value_cons.
      cbn [List.app] in H'; destruct f; [destruct H'|]; nia. }
  cbn [length].
  assert (LT : (10 ^ N.of_nat (length t) < 10 ^ N.of_nat n)%N).
  { eapply N.le_lt_trans; [exact G|]; eapply N.le_lt_trans; [|exact D].
    replace i with (j + (i - j)) in V by lia.
    rewrite Nnat.Nat2N.inj_add, N.pow_add_r in V.
    assert (P : (0 < 10 ^ N.of_nat j)%N) by (apply N.neq_0_lt_0, N.pow_nonzero; discriminate).
    assert (P' : (0 < 10 ^ N.of_nat (i - j))%N) by (apply N.neq_0_lt_0, N.pow_nonzero; discriminate).
    assert (V' : ((10 * value (rev t) + l) * 10 ^ N.of_nat (i - j) = d)%N).
    { apply (N.mul_cancel_r _ _ (10 ^ N.of_nat j)); [lia|]; rewrite N.add_0_r in V; rewrite <- V; ring. }
    rewrite <- V'; nia. }
  apply N.pow_lt_mono_r_iff in LT; lia.
Qed.

(** ** The texts of decimals *)
Definition fraction (fp : list N) : string := match fp with [] => "" | _ => "." ++ digits fp end.

Lemma digits_app a b : digits (a ++ b)%list = digits a ++ digits b.
Proof. induction a as [|d a IH]; [reflexivity|]; cbn [List.app digits append]; rewrite IH; reflexivity. Qed.
Lemma digits_length ds : String.length (digits ds) = length ds.
Proof. induction ds as [|d ds IH]; [reflexivity|]; cbn [digits String.length length]; rewrite IH; reflexivity. Qed.
Lemma digits_zeros j : times j "0" = digits (repeat 0%N j).
Proof. induction j as [|j IH]; [reflexivity|]; cbn [times repeat digits append]; rewrite IH; reflexivity. Qed.
Lemma zeros_digits j : are_digits (repeat 0%N j).
Proof. induction j; constructor; [reflexivity|assumption]. Qed.
Lemma substring_0 s : substring 0 (String.length s) s = s.
Proof. induction s as [|c s IH]; [reflexivity|]; cbn [String.length substring]; rewrite IH; reflexivity. Qed.
Lemma substring_left a b : substring 0 (String.length a) (a ++ b) = a.
Proof. induction a as [|c a IH]; [destruct b; reflexivity|]; cbn [String.length append substring]; rewrite IH; reflexivity. Qed.
Lemma substring_right a b : substring (String.length a) (String.length b) (a ++ b) = b.
Proof. induction a as [|c a IH]; [apply substring_0|]; cbn [String.length append substring]; exact IH. Qed.

Lemma show_N_digits d : (0 < d)%N -> exists ds, are_digits ds /\ show_N d = digits ds /\ value ds = d /\
  match ds with [] | 0%N :: _ => False | _ => True end.
Proof.
  intros P; destruct (scan_show d "" 0 eq_refl eq_refl) as [k H]; rewrite append_empty in H.
  apply scan_inv in H; destruct H as (ds & A & E & V & L & _); rewrite append_empty in E.
  fold (value ds) in V; exists ds; repeat split; try assumption; [congruence|].
  destruct ds as [|[|p] ds]; [cbn in V; lia| |exact I].
  rewrite value_cons in V; rewrite N.mul_0_l, N.add_0_l in V.
  inversion A as [|? ? _ A']; subst; clear A.
  destruct ds as [|c ds]; [cbn in P; lia|].
  pose proof (show_N_length (value (c :: ds)) (length (c :: ds)) (value_lt _ A') ltac:(cbn; lia)) as Q.
  rewrite E, digits_length in Q; cbn [length] in Q; lia.
Qed.

Lemma value_last ds : are_digits ds -> ds <> [] -> last ds 0%N = (value ds mod 10)%N.
Proof.
  intros A N; destruct (exists_last N) as (t & l & ->); rewrite last_last, value_snoc.
  apply Forall_app in A; destruct A as [_ A]; inversion A; subst.
  rewrite N.add_comm, N.mul_comm, N.mod_add, N.mod_small by lia; reflexivity.
Qed.
Lemma ten_pos q : (0 < powerRZ 10 q)%R.
Proof. apply powerRZ_lt; lra. Qed.
Lemma ten_add p q : powerRZ 10 (p + q) = (powerRZ 10 p * powerRZ 10 q)%R.
Proof. apply powerRZ_add; lra. Qed.
Lemma ten_nat j : IZR (Z.of_N (10 ^ N.of_nat j)) = powerRZ 10 (Z.of_nat j).
Proof.
  induction j as [|j IH]; [reflexivity|].
  rewrite Nnat.Nat2N.inj_succ, N.pow_succ_r', N2Z.inj_mul, mult_IZR, IH, Nat2Z.inj_succ.
  rewrite <- Z.add_1_l, ten_add, powerRZ_1; reflexivity.
Qed.

Lemma plain_text d q : (0 < d)%N -> exists ip fp j, are_digits ip /\ are_digits fp /\
  plain_decimal d q = digits ip ++ fraction fp /\
  value (ip ++ fp)%list = (d * 10 ^ N.of_nat j)%N /\ (Z.of_nat j - Z.of_nat (length fp) = q)%Z /\
  (ip = [0%N] \/ match ip with [] | 0%N :: _ => False | _ => True end) /\
  (fp = [] \/ last fp 0%N = (d mod 10)%N).
Proof.
  intros P; destruct (show_N_digits d P) as (ds & A & E & V & H); unfold plain_decimal; rewrite E.
  assert (C : (0 <= q)%Z \/ (q < 0)%Z) by lia; destruct C as [C|C].
  - exists (ds ++ repeat 0%N (Z.to_nat q))%list, [], (Z.to_nat q); cbn [fraction]; rewrite append_empty, app_nil_r.
    split; [apply Forall_app; split; [exact A|apply zeros_digits]|split; [constructor|]].
    split; [|split; [|split; [|split; [|left; reflexivity]]]].
    + rewrite digits_app, digits_zeros; destruct q; try reflexivity; lia.
    + rewrite value_app, value_zeros, repeat_length, V; lia.
    + cbn [length]; lia.
    + right; destruct ds as [|c ds]; [destruct H|exact H].
  - destruct q as [|q|k]; try lia; clear C; rewrite digits_length.
    destruct (Nat.ltb_spec (Pos.to_nat k) (length ds)) as [K|K].
    + set (m := length ds - Pos.to_nat k).
      assert (D := firstn_skipn m ds).
      assert (L1 : length (firstn m ds) = m) by (rewrite firstn_length; lia).
      assert (L2 : length (skipn m ds) = Pos.to_nat k) by (rewrite skipn_length; lia).
      exists (firstn m ds), (skipn m ds), 0.
      assert (A12 : are_digits (firstn m ds) /\ are_digits (skipn m ds)) by (apply Forall_app; rewrite D; exact A).
      destruct A12 as [A1 A2]; split; [exact A1|split; [exact A2|]].
      destruct (skipn m ds) as [|f fp] eqn:S2; [cbn in L2; lia|].
      split; [|split; [|split; [|split]]].
      * fold m; unfold fraction; f_equal; [|f_equal].
        -- pose proof (substring_left (digits (firstn m ds)) (digits (f :: fp))) as Q.
           rewrite <- digits_app, D, digits_length, L1 in Q; exact Q.
        -- pose proof (substring_right (digits (firstn m ds)) (digits (f :: fp))) as Q.
           rewrite <- digits_app, D, !digits_length, L1, L2 in Q; exact Q.
      * rewrite D, V; cbn; lia.
      * rewrite L2; lia.
      * right; destruct (firstn m ds) as [|c r]; [cbn in L1; lia|]; rewrite <- D in H; exact H.
      * right; rewrite <- V; rewrite <- value_last by (exact A || (intros ->; destruct H)).
        rewrite <- D; clear; induction (firstn m ds) as [|c l IH]; [reflexivity|].
        cbn [List.app]; rewrite IH; destruct l; reflexivity.
    + exists [0%N], (repeat 0%N (Pos.to_nat k - length ds) ++ ds)%list, 0.
      split; [repeat constructor|split; [apply Forall_app; split; [apply zeros_digits|exact A]|]].
      split; [|split; [|split; [|split; [left; reflexivity|right]]]].
      * assert (NE : (repeat 0%N (Pos.to_nat k - length ds) ++ ds)%list <> [])
          by (destruct ds; [destruct H|]; destruct (repeat _ _); discriminate).
        unfold fraction; destruct (repeat 0%N (Pos.to_nat k - length ds) ++ ds)%list eqn:R; [contradiction|].
        rewrite <- R, digits_app, digits_zeros; reflexivity.
      * cbn [List.app]; rewrite value_cons, value_app, value_zeros, V; cbn; lia.
      * rewrite app_length, repeat_length; lia.
      * rewrite <- V, <- value_last by (exact A || (intros ->; destruct H)).
        generalize (repeat 0%N (Pos.to_nat k - length ds)); intros l.
        destruct ds as [|c ds]; [destruct H|]; clear.
        induction l as [|z l IH]; [reflexivity|]; cbn [List.app]; rewrite <- IH; destruct l; reflexivity.
Qed.

(** ** What the candidates denote *)
Definition val (c : N * Z) : R := (IZR (Z.of_N (fst c)) * powerRZ 10 (snd c))%R.

Lemma sign_text_show s : sign_text s (show_sign s).
Proof. destruct s; [reflexivity|left; reflexivity]. Qed.
Lemma fraction_ok fp : fraction_text fp (fraction fp).
Proof. destruct fp; [right; split; reflexivity|left; reflexivity]. Qed.
Lemma shown_decimal s d q : (0 < d)%N -> exists ip fp, decimal_text s ip fp 0 (show_sign s ++ plain_decimal d q) /\
  denoted s ip fp 0 = ((if s then -1 else 1) * val (d, q))%R.
Proof.
  intros P; destruct (plain_text d q P) as (ip & fp & j & A1 & A2 & E & V & J & H & _).
  exists ip, fp; split.
  - exists (show_sign s), (fraction fp), ""; rewrite E, append_empty.
    repeat split; try assumption; [apply sign_text_show| |apply fraction_ok|left; split; reflexivity].
    left; destruct H as [->|H]; [discriminate|intros ->; exact H].
  - unfold denoted, val; cbn [fst snd]; rewrite V, N2Z.inj_mul, mult_IZR, ten_nat.
    replace q with (Z.of_nat j + (0 - Z.of_nat (length fp)))%Z by lia; rewrite ten_add; ring.
Qed.

Lemma same_sf_true (x y : f64) : same_sf (B2SF x) (B2SF y) = true -> x = y.
Proof.
  intros H; apply B2SF_inj; destruct (B2SF x), (B2SF y); try discriminate H.
  cbn [same_sf] in H; apply andb_prop in H; destruct H as [H H3]; apply andb_prop in H; destruct H as [H1 H2].
  apply Bool.eqb_prop in H1; apply Pos.eqb_eq in H2; apply Z.eqb_eq in H3; subst; reflexivity.
Qed.
Lemma same_sf_refl s m e B : same_sf (B2SF (B754_finite s m e B : f64)) (B2SF (B754_finite s m e B : f64)) = true.
Proof. cbn [B2SF same_sf]; rewrite Bool.eqb_reflx, Pos.eqb_refl, Z.eqb_refl; reflexivity. Qed.

Lemma signed_abs (x : f64) : is_finite x = true -> B2R x = ((if Bsign x then -1 else 1) * Rabs (B2R x))%R.
Proof.
  destruct x as [s|s| |s m e B]; try discriminate; intros _; cbn [B2R Bsign].
  - rewrite Rabs_R0; ring.
  - pose proof (F2R_gt_0 radix2 (Float radix2 (Zpos m) e) ltac:(reflexivity)) as P.
    destruct s; cbn [SpecFloat.cond_Zopp].
    + change (Z.neg m) with (- Z.pos m)%Z; rewrite F2R_Zopp, Rabs_Ropp, Rabs_pos_eq by lra; ring.
    + rewrite Rabs_pos_eq by lra; ring.
Qed.
Lemma signed_round s v : rnd ((if s : bool then -1 else 1) * v) = ((if s then -1 else 1) * rnd v)%R.
Proof.
  destruct s; [|rewrite !Rmult_1_l; reflexivity].
  replace (-1 * v)%R with (- v)%R by ring; rewrite round_NE_opp; ring.
Qed.
Lemma nearest_iff (x : f64) v : is_finite x = true -> (0 <= v)%R ->
  (nearest_double (Bsign x) ((if Bsign x then -1 else 1) * v) x <-> rnd v = Rabs (B2R x)).
Proof.
  intros F Pv; unfold nearest_double; rewrite signed_round.
  assert (A : forall r, Rabs ((if Bsign x then -1 else 1) * r) = Rabs r).
  { intros r; rewrite Rabs_mult; destruct (Bsign x); rewrite ?Rabs_R1.
    - replace (-1)%R with (- (1))%R by ring; rewrite Rabs_Ropp, Rabs_R1; ring.
    - ring. }
  rewrite A.
  assert (P : (0 <= rnd v)%R).
  { rewrite <- (round_0 radix2 (SpecFloat.fexp 53 1024) ZnearestE).
    apply round_le; [apply fexp_correct; reflexivity|typeclasses eauto|exact Pv]. }
  rewrite (Rabs_pos_eq (rnd v) P); case Rlt_bool_spec; intros L.
  - split.
    + intros (E & _ & _); rewrite E, A, Rabs_pos_eq by exact P; reflexivity.
    + intros E; repeat split; [|exact F]; rewrite E; apply signed_abs, F.
  - split; [intros E; rewrite E in F; discriminate F|].
    intros E; pose proof (abs_B2R_lt_emax 53 1024 x); lra.
Qed.
Lemma denotes_iff s m e B d q : (0 < d)%N -> let x := B754_finite s m e B : f64 in
  denotes x (show_sign s ++ plain_decimal d q) = true <-> rnd (val (d, q)) = Rabs (B2R x).
Proof.
  intros P x; destruct (shown_decimal s d q P) as (ip & fp & D & E).
  assert (Pv : (0 <= val (d, q))%R).
  { unfold val; cbn [fst snd]; apply Rmult_le_pos; [apply IZR_le; lia|apply Rlt_le, ten_pos]. }
  assert (N := nearest_decimal s ip fp 0); set (y := f64_of_decimal _ _ _) in N.
  assert (Y : parse_f64 (show_sign s ++ plain_decimal d q) = Some y).
  { apply C81_numbers; left; exists s, ip, fp, 0%Z; split; assumption. }
  rewrite E in N; unfold denotes; rewrite Y; clearbody y; split.
  - intros H; apply same_sf_true in H; apply (nearest_iff x); [reflexivity|exact Pv|].
    rewrite H; rewrite <- H at 1 2; exact N.
  - intros H; apply (nearest_iff x) in H; [|reflexivity|exact Pv].
    rewrite (nearest_double_unique _ _ _ _ N H); apply same_sf_refl.
Qed.

(** ** The decimals around a number *)
Open Scope R_scope.
Notation nr n := (IZR (Z.of_N n)).

Lemma nr_pow n : nr (10 ^ n) = powerRZ 10 (Z.of_N n).
Proof. rewrite <- (Nnat.N2Nat.id n), ten_nat, nat_N_Z; reflexivity. Qed.
Lemma nr_lt a b : nr a < nr b <-> (a < b)%N.
Proof. split; intros H; [apply lt_IZR in H; lia|apply IZR_lt; lia]. Qed.
Lemma nr_le a b : nr a <= nr b <-> (a <= b)%N.
Proof. split; intros H; [apply le_IZR in H; lia|apply IZR_le; lia]. Qed.
Lemma nr_mul a b : nr (a * b) = nr a * nr b.
Proof. rewrite N2Z.inj_mul, mult_IZR; reflexivity. Qed.
Lemma nr_add a b : nr (a + b) = nr a + nr b.
Proof. rewrite N2Z.inj_add, plus_IZR; reflexivity. Qed.
(** Both powers of [decimals] and [leading]. *)
Lemma ten_split q : nr (10 ^ Z.to_N q) = powerRZ 10 q * nr (10 ^ Z.to_N (- q)).
Proof.
  rewrite !nr_pow, <- ten_add; f_equal; lia.
Qed.
Lemma ten_mono p q : (p <= q)%Z -> powerRZ 10 p <= powerRZ 10 q.
Proof.
  intros H; replace q with (p + Z.of_nat (Z.to_nat (q - p)))%Z by lia; rewrite ten_add, <- ten_nat.
  pose proof (ten_pos p); assert (1 <= nr (10 ^ N.of_nat (Z.to_nat (q - p)))).
  { apply (nr_le 1); assert (10 ^ N.of_nat (Z.to_nat (q - p)) <> 0)%N by (apply N.pow_nonzero; discriminate); lia. }
  nra.
Qed.

Lemma leading_ok num den : (0 < num)%N -> (0 < den)%N ->
  powerRZ 10 (leading num den - 1) <= nr num / nr den < powerRZ 10 (leading num den).
Proof.
  intros Pn Pd; unfold leading.
  assert (L : forall d, (0 < d)%N -> powerRZ 10 (Z.of_nat (String.length (show_N d)) - 1) <= nr d
               < powerRZ 10 (Z.of_nat (String.length (show_N d)))).
  { intros d P; destruct (show_N_digits d P) as (ds & A & E & V & H); rewrite E, digits_length; split.
    - destruct ds as [|f ds]; [destruct H|]; cbn [length].
      replace (Z.of_nat (S (length ds)) - 1)%Z with (Z.of_nat (length ds)) by lia.
      rewrite <- ten_nat; apply nr_le; rewrite <- V, value_cons; destruct f; [destruct H|]; nia.
    - rewrite <- ten_nat; apply nr_lt; rewrite <- V; apply value_lt, A. }
  destruct (L num Pn) as [N1 N2], (L den Pd) as [D1 D2]; clear L.
  set (a := Z.of_nat (String.length (show_N num))) in *; set (b := Z.of_nat (String.length (show_N den))) in *.
  clearbody a b; set (k := (a - b)%Z).
  assert (Rd : 0 < nr den) by (apply (nr_lt 0); exact Pd).
  assert (Rn : 0 < nr num) by (apply (nr_lt 0); exact Pn).
  assert (T : (den * 10 ^ Z.to_N k <= num * 10 ^ Z.to_N (- k))%N <-> powerRZ 10 k <= nr num / nr den).
  { rewrite <- nr_le, !nr_mul, (ten_split k).
    assert (P : 0 < nr (10 ^ Z.to_N (- k))) by (rewrite nr_pow; apply ten_pos).
    assert (E : nr num = nr num / nr den * nr den) by (field; lra).
    rewrite E at 1; set (r := nr num / nr den); split; intros H.
    - apply (Rmult_le_reg_r (nr den * nr (10 ^ Z.to_N (- k)))); [apply Rmult_lt_0_compat; assumption|lra].
    - apply (Rmult_le_compat_r (nr den * nr (10 ^ Z.to_N (- k)))) in H; [lra|].
      apply Rlt_le, Rmult_lt_0_compat; assumption. }
  destruct (N.leb_spec (den * 10 ^ Z.to_N k) (num * 10 ^ Z.to_N (- k))) as [C|C].
  - replace (k + 1 - 1)%Z with k by lia; split; [apply T, C|].
    apply (Rmult_lt_reg_r (nr den)); [exact Rd|].
    replace (nr num / nr den * nr den) with (nr num) by (field; lra).
    eapply Rlt_le_trans; [exact N2|].
    replace a with ((k + 1) + (b - 1))%Z by (unfold k; lia); rewrite ten_add.
    apply Rmult_le_compat_l; [apply Rlt_le, ten_pos|exact D1].
  - split.
    + apply (Rmult_le_reg_r (nr den)); [exact Rd|].
      replace (nr num / nr den * nr den) with (nr num) by (field; lra).
      eapply Rle_trans; [|exact N1].
      replace (a - 1)%Z with ((k - 1) + b)%Z by (unfold k; lia); rewrite ten_add.
      apply Rmult_le_compat_l; [apply Rlt_le, ten_pos|lra].
    + destruct (Rle_or_lt (powerRZ 10 k) (nr num / nr den)) as [Q|Q]; [|exact Q].
      apply T in Q; lia.
Qed.

(** Two consecutive decimals of [n] digits, [v] between them, the nearest first. *)
Definition around (v : R) (k : Z) (n : nat) (c1 c2 : N * Z) : Prop := exists lo hi,
  ((val c1 = lo /\ val c2 = hi) \/ (val c1 = hi /\ val c2 = lo)) /\ lo <= v < hi /\
  hi - lo = powerRZ 10 (k - Z.of_nat n) /\
  (0 < fst c1 < 10 ^ N.of_nat n)%N /\ (0 < fst c2 < 10 ^ N.of_nat n)%N /\
  Rabs (val c1 - v) <= Rabs (val c2 - v) /\
  (forall d q, (d < 10 ^ N.of_nat n)%N -> val (d, q) <= lo \/ hi <= val (d, q)).

Lemma decimals_ok num den k n : (0 < num)%N -> (0 < den)%N -> (1 <= n)%nat ->
  powerRZ 10 (k - 1) <= nr num / nr den < powerRZ 10 k ->
  exists c1 c2, decimals num den k n = [c1; c2] /\ around (nr num / nr den) k n c1 c2.
Proof.
  intros Pn Pd Hn [K1 K2]; unfold decimals; set (q := (k - Z.of_nat n)%Z).
  set (num' := (num * 10 ^ Z.to_N (- q))%N); set (den' := (den * 10 ^ Z.to_N q)%N).
  set (d := (num' / den')%N); set (v := nr num / nr den).
  assert (Rd : 0 < nr den) by (apply (nr_lt 0); exact Pd).
  assert (Rn : 0 < nr num) by (apply (nr_lt 0); exact Pn).
  assert (Pp : forall a, (0 < 10 ^ a)%N) by (intros a; apply N.neq_0_lt_0, N.pow_nonzero; discriminate).
  assert (Pd' : (0 < den')%N) by (unfold den'; pose proof (Pp (Z.to_N q)); nia).
  assert (Rd' : 0 < nr den') by (apply (nr_lt 0); exact Pd').
  pose proof (ten_pos q) as Tq.
  (* the scaled quotient *)
  assert (Q : nr num' / nr den' * powerRZ 10 q = v).
  { unfold num', den', v; rewrite !nr_mul, (ten_split q).
    assert (P : 0 < nr (10 ^ Z.to_N (- q))) by (rewrite nr_pow; apply ten_pos).
    field; lra. }
  assert (Ed : (num' = den' * d + num' mod den')%N) by (apply N.div_mod; lia).
  assert (Em : (num' mod den' < den')%N) by (apply N.mod_lt; lia).
  set (r := (num' mod den')%N) in *.
  assert (Es : (num' - d * den' = r)%N) by lia.
  assert (Fl : nr num' / nr den' = nr d + nr r / nr den') by (rewrite Ed at 1; rewrite nr_add, nr_mul; field; lra).
  assert (Fr : 0 <= nr r / nr den' < 1).
  { assert (0 <= nr r) by (apply (nr_le 0); lia).
    assert (nr r < nr den') by (apply nr_lt; exact Em); split.
    - apply Rmult_le_pos; [assumption|apply Rlt_le, Rinv_0_lt_compat, Rd'].
    - apply (Rmult_lt_reg_r (nr den')); [exact Rd'|].
      replace (nr r / nr den' * nr den') with (nr r) by (field; lra); lra. }
  set (f := nr r / nr den') in *.
  assert (V : v = (nr d + f) * powerRZ 10 q) by (rewrite <- Q, Fl; reflexivity).
  (* its number of digits *)
  assert (Tn : powerRZ 10 k = powerRZ 10 (Z.of_nat n) * powerRZ 10 q)
    by (rewrite <- ten_add; f_equal; unfold q; lia).
  assert (Tn1 : powerRZ 10 (k - 1) = powerRZ 10 (Z.of_nat (n - 1)) * powerRZ 10 q)
    by (rewrite <- ten_add; f_equal; unfold q; lia).
  assert (D2 : (d + 1 <= 10 ^ N.of_nat n)%N).
  { assert (d < 10 ^ N.of_nat n)%N; [|lia]; apply nr_lt; rewrite ten_nat.
    apply (Rmult_lt_reg_r (powerRZ 10 q)); [exact Tq|]; rewrite <- Tn.
    eapply Rle_lt_trans; [|exact K2]; fold v; rewrite V.
    apply Rmult_le_compat_r; [lra|]; destruct Fr; lra. }
  assert (D1 : (10 ^ N.of_nat (n - 1) <= d)%N).
  { assert (10 ^ N.of_nat (n - 1) < d + 1)%N; [|lia].
    apply nr_lt; rewrite ten_nat, nr_add; change (nr 1) with 1.
    apply (Rmult_lt_reg_r (powerRZ 10 q)); [exact Tq|]; rewrite <- Tn1.
    eapply Rle_lt_trans; [exact K1|]; fold v; rewrite V.
    apply Rmult_lt_compat_r; [exact Tq|]; destruct Fr; lra. }
  assert (Pos : (0 < d)%N) by (pose proof (Pp (N.of_nat (n - 1))); lia).
  set (above := if (d + 1 =? 10 ^ N.of_nat n)%N then (1%N, k) else ((d + 1)%N, q)).
  assert (One : (1 < 10 ^ N.of_nat n)%N).
  { replace 1%N with (10 ^ 0)%N by reflexivity; apply N.pow_lt_mono_r; lia. }
  assert (Va : val above = (nr d + 1) * powerRZ 10 q).
  { unfold above; destruct (N.eqb_spec (d + 1) (10 ^ N.of_nat n)) as [E|E]; unfold val; cbn [fst snd].
    - rewrite Tn, <- ten_nat, <- E, nr_add; change (nr 1) with 1; ring.
    - rewrite nr_add; reflexivity. }
  assert (Vb : val (d, q) = nr d * powerRZ 10 q) by reflexivity.
  assert (Pa : (0 < fst above < 10 ^ N.of_nat n)%N).
  { unfold above; destruct (N.eqb_spec (d + 1) (10 ^ N.of_nat n)) as [E|E]; cbn [fst]; lia. }
  assert (B : val (d, q) <= v < val above).
  { rewrite Va, Vb, V; destruct Fr as [F1 F2]; split; [apply Rmult_le_compat_r; lra|apply Rmult_lt_compat_r; lra]. }
  assert (Gap : val above - val (d, q) = powerRZ 10 q) by (rewrite Va, Vb; ring).
  assert (No : forall d' q', (d' < 10 ^ N.of_nat n)%N -> val (d', q') <= val (d, q) \/ val above <= val (d', q')).
  { intros d' q' Hd'; destruct (Z.le_gt_cases q q') as [C|C].
    - assert (E : val (d', q') = nr (d' * 10 ^ Z.to_N (q' - q)) * powerRZ 10 q).
      { unfold val; cbn [fst snd]; rewrite nr_mul, nr_pow, Rmult_assoc, <- ten_add; do 2 f_equal; lia. }
      rewrite E, Va, Vb; set (e := (d' * 10 ^ Z.to_N (q' - q))%N).
      destruct (N.le_gt_cases e d) as [C'|C']; [left|right]; apply Rmult_le_compat_r; try lra.
      + apply nr_le, C'.
      + change 1 with (nr 1); rewrite <- nr_add; apply nr_le; lia.
    - left; apply Rle_trans with (powerRZ 10 (k - 1)).
      + apply Rlt_le; eapply Rlt_le_trans with (powerRZ 10 (Z.of_nat n) * powerRZ 10 q').
        * unfold val; cbn [fst snd]; apply Rmult_lt_compat_r; [apply ten_pos|].
          rewrite <- ten_nat; apply nr_lt, Hd'.
        * rewrite <- ten_add; apply ten_mono; unfold q in C; lia.
      + rewrite Tn1, Vb, <- ten_nat; apply Rmult_le_compat_r; [lra|apply nr_le, D1]. }
  rewrite Es; fold above.
  assert (F : forall h, f = h -> (2 * r <=? den')%N = Rle_bool (2 * h) 1).
  { intros h <-; case Rle_bool_spec; intros C.
    - apply N.leb_le, nr_le; rewrite nr_mul; change (nr 2) with 2.
      apply (Rmult_le_compat_r (nr den')) in C; [|lra]; unfold f in C.
      replace (2 * (nr r / nr den') * nr den') with (2 * nr r) in C by (field; lra); lra.
    - apply N.leb_gt, nr_lt; rewrite nr_mul; change (nr 2) with 2.
      apply (Rmult_lt_compat_r (nr den')) in C; [|lra]; unfold f in C.
      replace (2 * (nr r / nr den') * nr den') with (2 * nr r) in C by (field; lra); lra. }
  rewrite (F f eq_refl).
  assert (A1 : Rabs (val (d, q) - v) = f * powerRZ 10 q).
  { rewrite Rabs_minus_sym, Rabs_pos_eq by lra; rewrite Vb, V; ring. }
  assert (A2 : Rabs (val above - v) = (1 - f) * powerRZ 10 q).
  { rewrite Rabs_pos_eq by lra; rewrite Va, V; ring. }
  case Rle_bool_spec; intros C.
  - exists (d, q), above; split; [reflexivity|].
    exists (val (d, q)), (val above); split; [left; split; reflexivity|].
    split; [exact B|split; [exact Gap|split; [cbn [fst]; lia|split; [exact Pa|split; [|exact No]]]]].
    rewrite A1, A2; apply Rmult_le_compat_r; lra.
  - exists above, (d, q); split; [reflexivity|].
    exists (val (d, q)), (val above); split; [right; split; reflexivity|].
    split; [exact B|split; [exact Gap|split; [exact Pa|split; [cbn [fst]; lia|split; [|exact No]]]]].
    rewrite A1, A2; apply Rmult_le_compat_r; lra.
Qed.

(** ** Rounding *)
Lemma rnd_le a b : a <= b -> rnd a <= rnd b.
Proof. intros H; apply round_le; [apply fexp_correct; reflexivity|typeclasses eauto|exact H]. Qed.
(** The numbers rounded to [X] are an interval. *)
Lemma rnd_between X y1 y : rnd X = X -> rnd y1 = X -> (y1 <= y <= X \/ X <= y <= y1) -> rnd y = X.
Proof.
  intros FX E [[A B]|[A B]]; apply rnd_le in A; apply rnd_le in B; lra.
Qed.
Lemma fexp_ge e : (e - 53 <= SpecFloat.fexp 53 1024 e)%Z.
Proof. unfold SpecFloat.fexp; lia. Qed.
Lemma rnd_close X y : 0 < X -> generic_format radix2 (SpecFloat.fexp 53 1024) X ->
  Rabs (y - X) <= X * powerRZ 10 (-16) / 2 -> rnd y = X.
Proof.
  intros P FX C; apply Rabs_le_inv in C; destruct C as [C1 C2].
  assert (VE : Valid_exp (SpecFloat.fexp 53 1024)) by (apply fexp_correct; reflexivity).
  pose proof (bpow_mag_gt radix2 X) as M2; pose proof (bpow_mag_le radix2 X ltac:(lra)) as M1.
  rewrite Rabs_pos_eq in M1, M2 by lra; set (e := (mag radix2 X : Z)) in *.
  assert (T : powerRZ 10 (-16) * bpow radix2 53 < 1).
  { assert (E16 : powerRZ 10 (-16) * powerRZ 10 16 = 1) by (rewrite <- ten_add; reflexivity).
    assert (N16 : powerRZ 10 16 = 10000000000000000) by (symmetry; exact (ten_nat 16)).
    assert (B53 : bpow radix2 53 = 9007199254740992) by reflexivity.
    rewrite N16 in E16; rewrite B53; pose proof (ten_pos (-16)); lra. }
  assert (U : forall e', bpow radix2 e' * powerRZ 10 (-16) < bpow radix2 (e' - 53)).
  { intros e'; replace e' with ((e' - 53) + 53)%Z at 1 by lia; rewrite bpow_plus.
    pose proof (bpow_gt_0 radix2 (e' - 53)); nra. }
  pose proof (ten_pos (-16)) as Tp.
  apply Rle_antisym.
  - apply round_N_le_midp; [exact VE|exact FX|].
    rewrite succ_eq_pos, ulp_neq_0 by lra; unfold cexp; fold e.
    pose proof (bpow_le radix2 _ _ (fexp_ge e)); pose proof (U e); nra.
  - apply round_N_ge_midp; [exact VE|exact FX|].
    rewrite pred_eq_pos by lra; unfold pred_pos; fold e; case Req_bool_spec; intros Eq.
    + pose proof (bpow_le radix2 _ _ (fexp_ge (e - 1))); pose proof (U (e - 1)%Z) as U1; rewrite <- Eq in U1; lra.
    + rewrite ulp_neq_0 by lra; unfold cexp; fold e.
      pose proof (bpow_le radix2 _ _ (fexp_ge e)); pose proof (U e); nra.
Qed.

(** ** The chosen decimal *)
Lemma find_stages {A : Type} (p : string -> bool) (h : A -> string) (g : nat -> list A) m : forall a,
  match find p (map h (flat_map g (seq a m))) with
  | Some t => exists n, (a <= n < a + m)%nat /\ find p (map h (g n)) = Some t /\
                forall n', (a <= n' < n)%nat -> forall c, In c (g n') -> p (h c) = false
  | None => forall n, (a <= n < a + m)%nat -> forall c, In c (g n) -> p (h c) = false
  end.
Proof.
  assert (FA : forall l1 l2, find p (l1 ++ l2)%list = match find p l1 with Some t => Some t | None => find p l2 end).
  { induction l1 as [|t l1 IH]; intros l2; [reflexivity|]; cbn [List.app find]; rewrite IH; destruct (p t); reflexivity. }
  induction m as [|m IH]; intros a; cbn [seq flat_map map find]; [intros n Hn; lia|].
  rewrite map_app, FA.
  assert (Stage : find p (map h (g a)) = None -> forall c, In c (g a) -> p (h c) = false).
  { intros E c I; apply (find_none _ _ E), in_map, I. }
  destruct (find p (map h (g a))) as [t|] eqn:E.
  - exists a; split; [lia|split; [exact E|intros n' Hn'; lia]].
  - specialize (IH (S a)); destruct (find p (map h (flat_map g (seq (S a) m)))) as [t|].
    + destruct IH as (n & Hn & F & L); exists n; split; [lia|split; [exact F|]].
      intros n' Hn' c I; destruct (Nat.eq_dec n' a) as [->|D]; [apply Stage; auto|apply (L n'); [lia|exact I]].
    + intros n Hn c I; destruct (Nat.eq_dec n a) as [->|D]; [apply Stage; auto|apply (IH n); [lia|exact I]].
Qed.

(** [c] is the shortest decimal rounded to [X] and the nearest of them. *)
Definition best (X : R) (c : N * Z) (n : nat) : Prop :=
  (0 < fst c < 10 ^ N.of_nat n)%N /\ rnd (val c) = X /\ (n <= 17)%nat /\
  forall d q n', (d < 10 ^ N.of_nat n')%N -> rnd (val (d, q)) = X ->
    (n <= n')%nat /\ (n' = n -> Rabs (val c - X) <= Rabs (val (d, q) - X)).

Lemma val_ten d q : val ((10 * d)%N, q) = val (d, (q + 1)%Z).
Proof. unfold val; cbn [fst snd]; rewrite nr_mul, ten_add, powerRZ_1; change (nr 10) with 10; ring. Qed.

Lemma best_last X c n : best X c n -> 0 < X -> (fst c mod 10 <> 0)%N.
Proof.
  intros (P & R & _ & L) PX M; destruct c as [d q]; cbn [fst] in *.
  assert (E : (d = 10 * (d / 10))%N) by (pose proof (N.div_mod d 10 ltac:(discriminate)); lia).
  destruct n as [|n]; [cbn in P; lia|].
  rewrite E, val_ten in R.
  destruct (L (d / 10)%N (q + 1)%Z n) as [C _]; [|exact R|lia].
  destruct P as [_ P]; rewrite Nnat.Nat2N.inj_succ, N.pow_succ_r' in P; lia.
Qed.

Lemma display_best s m e B : let x := B754_finite s m e B : f64 in
  exists c n, display_f64 x = show_sign s ++ plain_decimal (fst c) (snd c) /\ best (Rabs (B2R x)) c n.
Proof.
  intros x; unfold x at 1; cbn [display_f64].
  set (num := (N.pos m * 2 ^ Z.to_N e)%N); set (den := (2 ^ Z.to_N (- e))%N); set (X := Rabs (B2R x)).
  assert (P2 : forall a, (0 < 2 ^ a)%N) by (intros a; apply N.neq_0_lt_0, N.pow_nonzero; discriminate).
  assert (Pn : (0 < num)%N) by (unfold num; pose proof (P2 (Z.to_N e)); nia).
  assert (Pd : (0 < den)%N) by (unfold den; apply P2).
  assert (PX : 0 < X).
  { unfold X; apply Rabs_pos_lt; unfold x; cbn [B2R]; apply F2R_neq_0; destruct s; discriminate. }
  assert (EX : nr num / nr den = X).
  { unfold X, x; cbn [B2R]; rewrite <- F2R_Zabs, abs_cond_Zopp; unfold num, den, F2R; cbn [Fnum Fexp].
    assert (T : forall a, nr (2 ^ a) = bpow radix2 (Z.of_N a)).
    { intros a; rewrite N2Z.inj_pow; rewrite <- (IZR_Zpower radix2) by lia; reflexivity. }
    rewrite nr_mul, !T; unfold Rdiv; rewrite <- bpow_opp, Rmult_assoc, <- bpow_plus.
    f_equal; f_equal; lia. }
  assert (FX : generic_format radix2 (SpecFloat.fexp 53 1024) X) by apply generic_format_abs, generic_format_B2R.
  assert (RX : rnd X = X) by (apply round_generic; [typeclasses eauto|exact FX]).
  pose proof (leading_ok num den Pn Pd) as K; set (k := leading num den) in *.
  assert (D : forall n, (1 <= n)%nat -> exists c1 c2, decimals num den k n = [c1; c2] /\ around X k n c1 c2).
  { intros n Hn; rewrite <- EX; apply decimals_ok; assumption. }
  rewrite EX in K.
  assert (H : forall c, (0 < fst c)%N -> denotes x (show_sign s ++ plain_decimal (fst c) (snd c)) = true <-> rnd (val c) = X).
  { intros [d q] Hc; apply denotes_iff, Hc. }
  (* nothing of [n] digits or nothing among the candidates *)
  assert (Hit : forall n, (1 <= n)%nat -> (forall c, In c (decimals num den k n) ->
                  denotes x (show_sign s ++ plain_decimal (fst c) (snd c)) = false) ->
                forall d q, (d < 10 ^ N.of_nat n)%N -> rnd (val (d, q)) <> X).
  { intros n Hn No d q Hd R; destruct (D n Hn) as (c1 & c2 & E & lo & hi & V & Bt & _ & P1 & P2' & _ & L).
    rewrite E in No.
    assert (N1 : rnd (val c1) <> X) by (intros Q; apply H in Q; [|lia]; rewrite (No c1) in Q by (left; reflexivity); discriminate).
    assert (N2 : rnd (val c2) <> X) by (intros Q; apply H in Q; [|lia]; rewrite (No c2) in Q by (right; left; reflexivity); discriminate).
    assert (Q : rnd lo = X \/ rnd hi = X).
    { destruct (L d q Hd) as [C|C]; [left|right]; apply (rnd_between X (val (d, q))); try assumption; lra. }
    destruct V as [[<- <-]|[<- <-]]; destruct Q; contradiction. }
  assert (Hit' : forall n, (n = 0)%nat -> forall d q, (d < 10 ^ N.of_nat n)%N -> rnd (val (d, q)) <> X).
  { intros n -> d q Hd R; assert (d = 0)%N as -> by (cbn in Hd; lia).
    unfold val in R; cbn [fst snd] in R; rewrite Rmult_0_l, round_0 in R by typeclasses eauto; lra. }
  pose proof (find_stages (denotes x) (fun dq => show_sign s ++ plain_decimal (fst dq) (snd dq)) (decimals num den k) 17 1) as FS.
  fold x; destruct (find _ _) as [t|].
  - destruct FS as (n & Hn & F & Before).
    assert (Least : forall n' d q, (n' < n)%nat -> (d < 10 ^ N.of_nat n')%N -> rnd (val (d, q)) <> X).
    { intros n' d q Hn' Hd; destruct (Nat.eq_dec n' 0) as [Z|Z]; [apply (Hit' n'); assumption|].
      apply (Hit n'); [lia| |exact Hd]; apply Before; lia. }
    destruct (D n ltac:(lia)) as (c1 & c2 & E & lo & hi & V & Bt & _ & P1 & P2' & Near & L).
    rewrite E in F; cbn [map find] in F.
    destruct (denotes x (show_sign s ++ plain_decimal (fst c1) (snd c1))) eqn:D1.
    + injection F as <-; exists c1, n; split; [reflexivity|].
      apply H in D1; [|lia]; split; [exact P1|split; [exact D1|split; [lia|]]].
      intros d q n' Hd R; split.
      * destruct (Nat.le_gt_cases n n') as [C|C]; [exact C|]; destruct (Least n' d q C Hd R).
      * intros ->; assert (M : Rabs (lo - X) <= Rabs (val (d, q) - X) \/ Rabs (hi - X) <= Rabs (val (d, q) - X)).
        { destruct (L d q Hd) as [C|C]; [left|right]; unfold Rabs; repeat destruct Rcase_abs; lra. }
        destruct V as [[V1 V2]|[V1 V2]]; rewrite V1, V2 in *; destruct M; lra.
    + destruct (denotes x (show_sign s ++ plain_decimal (fst c2) (snd c2))) eqn:D2; [|discriminate F].
      injection F as <-; exists c2, n; split; [reflexivity|].
      apply H in D2; [|lia]; split; [exact P2'|split; [exact D2|split; [lia|]]].
      assert (N1 : rnd (val c1) <> X) by (intros Q; apply H in Q; [rewrite Q in D1; discriminate|lia]).
      intros d q n' Hd R; split.
      * destruct (Nat.le_gt_cases n n') as [C|C]; [exact C|]; destruct (Least n' d q C Hd R).
      * intros ->; destruct (L d q Hd) as [C|C].
        -- assert (Q : rnd lo = X) by (apply (rnd_between X (val (d, q))); try assumption; lra).
           destruct V as [[V1 V2]|[V1 V2]]; [rewrite V1 in N1; contradiction|].
           rewrite V2; unfold Rabs; repeat destruct Rcase_abs; lra.
        -- assert (Q : rnd hi = X) by (apply (rnd_between X (val (d, q))); try assumption; lra).
           destruct V as [[V1 V2]|[V1 V2]]; [|rewrite V1 in N1; contradiction].
           rewrite V2; unfold Rabs; repeat destruct Rcase_abs; lra.
  - exfalso; destruct (D 17%nat ltac:(lia)) as (c1 & c2 & E & A).
    assert (D17 := FS 17%nat ltac:(lia) c1); rewrite E in D17; specialize (D17 (or_introl eq_refl)).
    destruct A as (lo & hi & V & Bt & Gap & P1 & P2' & Near & L).
    assert (R : rnd (val c1) = X).
    { apply rnd_close; [exact PX|exact FX|].
      assert (T : hi - lo <= X * powerRZ 10 (-16)).
      { rewrite Gap; replace (k - Z.of_nat 17)%Z with ((k - 1) + -16)%Z by lia; rewrite ten_add.
        apply Rmult_le_compat_r; [apply Rlt_le, ten_pos|apply K]. }
      destruct V as [[V1 V2]|[V1 V2]]; rewrite V1, V2 in Near; rewrite V1; revert Near;
        unfold Rabs; repeat destruct Rcase_abs; intros; lra. }
    apply H in R; [|lia]; rewrite R in D17; discriminate D17.
Qed.

(** ** C82 *)

(** The text of a finite number other than zero: minus sign, digits, and a
    fraction without zeros at its end; no decimal number that is read as the
    same double has fewer significant digits, and of those with as many, none
    is nearer. *)
Theorem C82_shortest x : is_finite_strict x = true -> exists ip fp,
  are_digits ip /\ are_digits fp /\
  display_f64 x = (if Bsign x then "-" else "") ++ digits ip ++ (match fp with [] => "" | _ => "." ++ digits fp end) /\
  (ip = [0%N] \/ hd 0%N ip <> 0%N) /\ (fp = [] \/ last fp 0%N <> 0%N) /\
  (significant (ip ++ fp) <= 17)%nat /\
  forall neg ip' fp' e s, decimal_text neg ip' fp' e s -> parse_f64 s = Some x ->
    (significant (ip ++ fp) <= significant (ip' ++ fp'))%nat /\
    (significant (ip' ++ fp') = significant (ip ++ fp) ->
     Rabs (denoted (Bsign x) ip fp 0 - B2R x) <= Rabs (denoted neg ip' fp' e - B2R x)).
Proof.
  destruct x as [s|s| |s m ex B]; try discriminate; intros _.
  destruct (display_best s m ex B) as (c & n & E & Bst); set (x := B754_finite s m ex B : f64) in *.
  assert (PX : 0 < Rabs (B2R x)).
  { apply Rabs_pos_lt; unfold x; cbn [B2R]; apply F2R_neq_0; destruct s; discriminate. }
  assert (Ml := best_last _ _ _ Bst PX).
  destruct Bst as (P & R & L17 & L).
  destruct (plain_text (fst c) (snd c) ltac:(lia)) as (ip & fp & j & A1 & A2 & T & V & J & Hh & Hl).
  assert (Sg : (significant (ip ++ fp) <= n)%nat).
  { apply (significant_least _ (fst c) j); [apply Forall_app; split; assumption|exact V|apply P]. }
  exists ip, fp; split; [exact A1|split; [exact A2|split; [|split; [|split; [|split; [lia|]]]]]].
  - rewrite E, T; reflexivity.
  - destruct Hh as [Hh|Hh]; [left; exact Hh|right]; destruct ip as [|[|p] ip]; [destruct Hh|destruct Hh|discriminate].
  - destruct Hl as [Hl|Hl]; [left; exact Hl|right; rewrite Hl; exact Ml].
  - intros neg ip' fp' e t D Pt.
    assert (A' : are_digits (ip' ++ fp')%list).
    { destruct D as (sg & f & e0 & _ & D1 & D2 & _); apply Forall_app; split; assumption. }
    destruct (significant_split _ A') as (d' & j' & V' & Ld & _).
    assert (E' : denoted neg ip' fp' e = (if neg then -1 else 1) * val (d', (Z.of_nat j' + (e - Z.of_nat (length fp')))%Z)).
    { unfold denoted, val; cbn [fst snd]; rewrite V', nr_mul, ten_nat, ten_add; ring. }
    set (q' := (Z.of_nat j' + (e - Z.of_nat (length fp')))%Z) in *.
    assert (Nx : nearest_double neg (denoted neg ip' fp' e) x).
    { assert (N := nearest_decimal neg ip' fp' e).
      assert (Y : parse_f64 t = Some (f64_of_decimal neg (value (ip' ++ fp')%list) (e - Z.of_nat (length fp')))).
      { apply C81_numbers; left; exists neg, ip', fp', e; split; assumption. }
      rewrite Pt in Y; injection Y as Y; rewrite Y; exact N. }
    assert (Ng : neg = Bsign x).
    { unfold nearest_double in Nx; destruct (Rlt_bool _ _); [symmetry; apply Nx|discriminate Nx]. }
    rewrite E', Ng in Nx; apply nearest_iff in Nx; [|reflexivity|].
    2: { unfold val; cbn [fst snd]; apply Rmult_le_pos; [apply IZR_le; lia|apply Rlt_le, ten_pos]. }
    destruct (L d' q' _ Ld Nx) as [G1 G2]; split; [lia|].
    intros Es; specialize (G2 ltac:(lia)).
    assert (Ed : denoted (Bsign x) ip fp 0 = (if Bsign x then -1 else 1) * val c).
    { unfold denoted, val; rewrite V, nr_mul, ten_nat.
      rewrite <- J; replace (Z.of_nat j - Z.of_nat (length fp))%Z with (Z.of_nat j + (0 - Z.of_nat (length fp)))%Z by lia.
      rewrite ten_add; ring. }
    rewrite Ed, E', Ng, (signed_abs x eq_refl).
    assert (Ab : forall a b, Rabs ((if Bsign x then -1 else 1) * a - (if Bsign x then -1 else 1) * b) = Rabs (a - b)).
    { intros a b; destruct (Bsign x).
      - replace (-1 * a - -1 * b) with (- (a - b)) by ring; apply Rabs_Ropp.
      - f_equal; ring. }
    rewrite !Ab; exact G2.
Qed.
Print Assumptions C82_shortest.

(** The other numbers. *)
Theorem C82_others x : is_finite_strict x = false ->
  display_f64 x = match x with
                  | B754_zero s => if s then "-0" else "0"
                  | B754_infinity s => if s then "-inf" else "inf"
                  | _ => "NaN"
                  end.
Proof. destruct x as [[]|[]| |s m e B]; try discriminate; reflexivity. Qed.
Print Assumptions C82_others.

(** Cases: one tenth is written with one digit although the double is not one
    tenth; a third has 16 digits; 5e-324, the least positive number, is written
    with one digit, the nearer "4.94..." being longer; 2^53 and 1e22. *)
Example C82_case :
  significant [0; 1; 2; 0; 3; 0; 0]%N = 4%nat /\ significant [0; 0]%N = 0%nat /\
  option_map display_f64 (parse_f64 "0.1000000000000000055511151231257827") = Some "0.1" /\
  option_map display_f64 (parse_f64 "0.33333333333333333333") = Some "0.3333333333333333" /\
  option_map display_f64 (parse_f64 "9007199254740992") = Some "9007199254740992" /\
  option_map display_f64 (parse_f64 "-1e22") = Some "-10000000000000000000000" /\
  match parse_f64 "4.94e-324" with
  | Some x => display_f64 x = plain_decimal 5 (-324) /\ is_finite_strict x = true
  | None => False
  end.
Proof. vm_compute; repeat split; reflexivity. Qed.
