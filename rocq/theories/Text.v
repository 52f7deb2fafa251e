(** Numbers as text: Rust's [str::parse] to [usize], [f64] and [bool] (standard
    library, not in the repository), and a printer used to write configuration
    files. Texts are byte strings. *)
From Coq Require Import Reals Ascii NArith DecimalString DecimalPos DecimalN Lra.
From Flocq Require Import Core BinarySingleNaN.
From Verif Require Import Base F64.
Open Scope string_scope.

(** *** Digits *)
(** Rust standard library, used by [parse] in xml_parser/util.rs:11, 24, 38. *)
Definition digit_of (c : ascii) : option N :=
  let n := N_of_ascii c in
  if ((48 <=? n) && (n <=? 57))%N then Some (n - 48)%N else None.

(** The digits at the front of [s]: the number they form after [acc], how many
    there are after [k], and what follows them. Rust standard library, used by
    [parse] in xml_parser/util.rs:11, 24, 38. *)
Fixpoint scan_digits (s : string) (acc : N) (k : nat) : N * nat * string :=
  match s with
  | EmptyString => (acc, k, EmptyString)
  | String c s' =>
      match digit_of c with
      | Some d => scan_digits s' (10 * acc + d)%N (S k)
      | None => (acc, k, s)
      end
  end.

(** *** [str::parse::<usize>] on a 64-bit machine *)
(** [usize::MAX]; the bound of the [parse::<usize>()] of xml_parser/util.rs:11. *)
Definition usize_max : N := 18446744073709551615.
(** xml_parser/util.rs:11. *)
Definition parse_digits (s : string) : option N :=
  match scan_digits s 0 0 with
  | (_, O, _) => None
  | (n, S _, EmptyString) => if (n <=? usize_max)%N then Some n else None
  | (_, _, String _ _) => None
  end.
(** xml_parser/util.rs:11. *)
Definition parse_usize (s : string) : option nat :=
  option_map N.to_nat
    (match s with
     | String "+" s' => parse_digits s'
     | _ => parse_digits s
     end).

(** *** [str::parse::<bool>] *)
(** xml_parser/node_solver.rs:15-18. *)
Definition parse_bool (s : string) : option bool :=
  if string_dec s "true" then Some true
  else if string_dec s "false" then Some false
  else None.

(** *** [str::parse::<f64>] *)

(** The double nearest to (num / den), ties to even, with the given sign. Rust
    standard library, [parse::<f64>()] of xml_parser/util.rs:24, 38. *)
Definition f64_of_ratio (neg : bool) (num den : positive) : f64 :=
  SF2B _ (proj1 (Bdiv_correct_aux 53 1024 prec64_gt_0 prec64_lt_emax mode_NE neg num 0 false den 0)).

(** The double nearest to m * 10^e. Rust standard library, [parse::<f64>()] of
    xml_parser/util.rs:24, 38. *)
Definition f64_of_decimal (neg : bool) (m : N) (e : Z) : f64 :=
  match m with
  | N0 => B754_zero neg
  | Npos p =>
      match e with
      | Zneg k => f64_of_ratio neg p (10 ^ k)
      | Zpos k => f64_of_ratio neg (p * 10 ^ k) 1
      | Z0 => f64_of_ratio neg p 1
      end
  end.

(** digits [. digits] [e [sign] digits], at least one digit before the exponent.
    Rust standard library, [parse::<f64>()] of xml_parser/util.rs:24, 38. *)
Definition parse_exponent (s : string) : option Z :=
  let '(neg, s') :=
    match s with
    | String "-" r => (true, r)
    | String "+" r => (false, r)
    | _ => (false, s)
    end in
  match scan_digits s' 0 0 with
  | (n, S _, EmptyString) => Some (if neg : bool then - Z.of_N n else Z.of_N n)%Z
  | _ => None
  end.
(** Rust standard library, [parse::<f64>()] of xml_parser/util.rs:24, 38. *)
Definition parse_number (s : string) : option (N * Z) :=
  let '(m1, k1, r1) := scan_digits s 0 0 in
  let '(m2, k2, r2) :=
    match r1 with
    | String "." r => scan_digits r m1 0
    | _ => (m1, O, r1)
    end in
  match k1 + k2 with
  | O => None
  | S _ =>
      match r2 with
      | EmptyString => Some (m2, - Z.of_nat k2)%Z
      | String c r =>
          if (Ascii.eqb c "e" || Ascii.eqb c "E")%bool
          then option_map (fun x => (m2, x - Z.of_nat k2)%Z) (parse_exponent r)
          else None
      end
  end.

(** Rust standard library ("inf", "infinity", "nan" in any case),
    xml_parser/util.rs:24, 38. *)
Definition lower (c : ascii) : ascii :=
  let n := N_of_ascii c in
  if ((65 <=? n) && (n <=? 90))%N then ascii_of_N (n + 32) else c.
(** Rust standard library, xml_parser/util.rs:24, 38. *)
Fixpoint lower_string (s : string) : string :=
  match s with
  | EmptyString => EmptyString
  | String c s' => String (lower c) (lower_string s')
  end.

(** Rust standard library, xml_parser/util.rs:24, 38. *)
Definition parse_unsigned (neg : bool) (s : string) : option f64 :=
  match parse_number s with
  | Some (m, e) => Some (f64_of_decimal neg m e)
  | None =>
      let l := lower_string s in
      if (l =? "inf") || (l =? "infinity") then Some (B754_infinity neg)
      else if l =? "nan" then Some B754_nan
      else None
  end.
(** xml_parser/util.rs:24, 38. *)
Definition parse_f64 (s : string) : option f64 :=
  match s with
  | String "-" r => parse_unsigned true r
  | String "+" r => parse_unsigned false r
  | _ => parse_unsigned false s
  end.

(** *** Printing, for the configuration writer *)
(** Digits of an integer (Rust standard library, e.g. log.rs:131, 153). *)
Definition show_N (n : N) : string := NilEmpty.string_of_uint (N.to_uint n).
(** [usize::to_string], e.g. log.rs:131, 153 and parameters.rs:93-134. *)
Definition show_usize (n : nat) : string := show_N (N.of_nat n).
(** [bool::to_string], parameters.rs:93-134. *)
Definition show_bool (b : bool) : string := if b then "true" else "false".

(** The sign written by [Display for f64], e.g. log.rs:156, 166. *)
Definition show_sign (neg : bool) : string := if neg then "-" else "".
(** The exact decimal expansion: m * 2^e as an integer, or, for negative [e],
    m * 5^-e times 10^e. Not in /repo: the exact text, for the writer of
    configuration files. *)
Definition show_f64 (x : f64) : string :=
  match x with
  | B754_zero s => show_sign s ++ "0"
  | B754_infinity s => show_sign s ++ "inf"
  | B754_nan => "NaN"
  | B754_finite s m e _ =>
      show_sign s ++
      match e with
      | Z0 => show_N (Npos m)
      | Zpos k => show_N (Npos (m * 2 ^ k))
      | Zneg k => show_N (Npos (m * 5 ^ k)) ++ "e-" ++ show_N (Npos k)
      end
  end.

(** ** Facts *)

Definition starts_with_digit (s : string) : bool :=
  match s with
  | String c _ => match digit_of c with Some _ => true | None => false end
  | EmptyString => false
  end.

Lemma append_assoc a b c : (a ++ b) ++ c = a ++ (b ++ c).
Proof. induction a as [|x a IH]; cbn; [reflexivity|rewrite IH; reflexivity]. Qed.
Lemma append_empty a : a ++ "" = a.
Proof. induction a as [|x a IH]; cbn; [reflexivity|rewrite IH; reflexivity]. Qed.

Fixpoint uint_length (u : Decimal.uint) : nat :=
  match u with
  | Decimal.Nil => O
  | Decimal.D0 u | Decimal.D1 u | Decimal.D2 u | Decimal.D3 u | Decimal.D4 u
  | Decimal.D5 u | Decimal.D6 u | Decimal.D7 u | Decimal.D8 u | Decimal.D9 u => S (uint_length u)
  end.
Fixpoint uint_value (u : Decimal.uint) (acc : N) : N :=
  match u with
  | Decimal.Nil => acc
  | Decimal.D0 u => uint_value u (10 * acc + 0)
  | Decimal.D1 u => uint_value u (10 * acc + 1)
  | Decimal.D2 u => uint_value u (10 * acc + 2)
  | Decimal.D3 u => uint_value u (10 * acc + 3)
  | Decimal.D4 u => uint_value u (10 * acc + 4)
  | Decimal.D5 u => uint_value u (10 * acc + 5)
  | Decimal.D6 u => uint_value u (10 * acc + 6)
  | Decimal.D7 u => uint_value u (10 * acc + 7)
  | Decimal.D8 u => uint_value u (10 * acc + 8)
  | Decimal.D9 u => uint_value u (10 * acc + 9)
  end%N.

Lemma scan_uint u : forall acc k r, starts_with_digit r = false ->
  scan_digits (NilEmpty.string_of_uint u ++ r) acc k = (uint_value u acc, k + uint_length u, r).
Proof.
  induction u as [|u IH|u IH|u IH|u IH|u IH|u IH|u IH|u IH|u IH|u IH]; intros acc k r Hr;
    cbn [NilEmpty.string_of_uint append uint_value uint_length].
  1: { rewrite Nat.add_0_r; destruct r as [|c r]; cbn in *; [reflexivity|].
       destruct (digit_of c); [discriminate|reflexivity]. }
  all: rewrite Nat.add_succ_r, <- Nat.add_succ_l, <- IH by exact Hr; reflexivity.
Qed.

Lemma uint_value_pos u : forall p, uint_value u (Npos p) = Npos (Pos.of_uint_acc u p).
Proof.
  induction u as [|u IH|u IH|u IH|u IH|u IH|u IH|u IH|u IH|u IH|u IH]; intros p;
    cbn [uint_value Pos.of_uint_acc]; [reflexivity|..]; rewrite <- IH; f_equal; lia.
Qed.
Lemma uint_value_of u : uint_value u 0 = N.of_uint u.
Proof.
  unfold N.of_uint.
  induction u as [|u IH|u IH|u IH|u IH|u IH|u IH|u IH|u IH|u IH|u IH];
    cbn [uint_value Pos.of_uint]; [reflexivity|exact IH|..]; apply uint_value_pos.
Qed.
Lemma uint_nonempty n : exists k, uint_length (N.to_uint n) = S k.
Proof.
  destruct (N.to_uint n) eqn:E; try (eexists; reflexivity).
  exfalso; destruct n as [|p]; [discriminate E|].
  apply (DecimalPos.Unsigned.to_uint_nonnil p), E.
Qed.

Lemma scan_show n r acc : starts_with_digit r = false -> acc = 0%N ->
  exists k, scan_digits (show_N n ++ r) acc 0 = (n, S k, r).
Proof.
  intros Hr ->; destruct (uint_nonempty n) as [k Hk]; exists k.
  unfold show_N; rewrite scan_uint by exact Hr.
  rewrite Hk, uint_value_of, DecimalN.Unsigned.of_to; reflexivity.
Qed.

(** The first character of a printed number is a digit. *)
Lemma show_first n : exists c s d, show_N n = String c s /\ digit_of c = Some d.
Proof.
  destruct (uint_nonempty n) as [k Hk]; unfold show_N.
  destruct (N.to_uint n) as [|u|u|u|u|u|u|u|u|u|u]; [discriminate Hk|..];
    cbn [NilEmpty.string_of_uint]; eexists _, _, _; split; reflexivity.
Qed.

Lemma parse_show_usize n : (N.of_nat n <= usize_max)%N -> parse_usize (show_usize n) = Some n.
Proof.
  intros Hn; unfold parse_usize, show_usize.
  destruct (show_first (N.of_nat n)) as (c & s & d & E & Hd).
  assert (P : parse_digits (show_N (N.of_nat n)) = Some (N.of_nat n)).
  { unfold parse_digits; destruct (scan_show (N.of_nat n) "" 0 eq_refl eq_refl) as [k Hk].
    rewrite append_empty in Hk; rewrite Hk; apply N.leb_le in Hn; rewrite Hn; reflexivity. }
  assert (Q : match show_N (N.of_nat n) with
              | String "+" s' => parse_digits s'
              | _ => parse_digits (show_N (N.of_nat n))
              end = parse_digits (show_N (N.of_nat n))).
  { rewrite E; destruct c as [[] [] [] [] [] [] [] []]; try reflexivity; discriminate Hd. }
  rewrite Q, P; cbn; f_equal; apply Nnat.Nat2N.id.
Qed.

Lemma parse_show_bool b : parse_bool (show_bool b) = Some b.
Proof. destruct b; reflexivity. Qed.

(** *** Correct rounding of decimals *)
Open Scope R_scope.

Definition decimal_value (neg : bool) (m : N) (e : Z) : R :=
  (if neg then -1 else 1) * IZR (Z.of_N m) * powerRZ 10 e.
Notation nearest := (round radix2 (SpecFloat.fexp 53 1024) ZnearestE).

Lemma ratio_correct (neg : bool) num den :
  let v := (if neg then -1 else 1) * (IZR (Zpos num) / IZR (Zpos den)) in
  if Rlt_bool (Rabs (nearest v)) (bpow radix2 1024) then
    B2R (f64_of_ratio neg num den) = nearest v /\
    is_finite (f64_of_ratio neg num den) = true /\ Bsign (f64_of_ratio neg num den) = neg
  else f64_of_ratio neg num den = B754_infinity neg.
Proof.
  intros v; unfold f64_of_ratio.
  pose proof (Bdiv_correct_aux 53 1024 prec64_gt_0 prec64_lt_emax mode_NE neg num 0 false den 0) as C.
  set (P := Bdiv_correct_aux 53 1024 prec64_gt_0 prec64_lt_emax mode_NE neg num 0 false den 0).
  clearbody P; cbv zeta in P, C; destruct C as [V C].
  assert (E : F2R (Float radix2 (cond_Zopp neg (Zpos num)) 0) /
              F2R (Float radix2 (cond_Zopp false (Zpos den)) 0) = v).
  { unfold F2R, v; cbn [Fnum Fexp cond_Zopp bpow]; rewrite !Rmult_1_r.
    destruct neg; cbn [cond_Zopp]; [rewrite opp_IZR; unfold Rdiv; ring|unfold Rdiv; ring]. }
  rewrite E in C; change (round_mode mode_NE) with ZnearestE in C.
  assert (X : xorb neg false = neg) by apply xorb_false_r.
  destruct (Rlt_bool (Rabs (nearest v)) (bpow radix2 1024)).
  - destruct C as (C1 & C2 & C3).
    split; [rewrite B2R_SF2B; exact C1|]; split; [rewrite is_finite_SF2B; exact C2|].
    rewrite Bsign_SF2B; exact (eq_trans C3 X).
  - apply B2SF_inj; rewrite B2SF_SF2B, C, X; reflexivity.
Qed.

Lemma powerRZ_pow_pos k : powerRZ 10 (Zpos k) = IZR (Zpos (10 ^ k)).
Proof. cbn [powerRZ]; rewrite Pos2Z.inj_pow, <- (positive_nat_Z k), <- pow_IZR; reflexivity. Qed.

(** [parse] gives the double nearest to the decimal number, and infinity when
    that is beyond the largest double. *)
Lemma decimal_correct (neg : bool) m e :
  let v := decimal_value neg m e in
  if Rlt_bool (Rabs (nearest v)) (bpow radix2 1024) then
    B2R (f64_of_decimal neg m e) = nearest v /\
    is_finite (f64_of_decimal neg m e) = true /\ Bsign (f64_of_decimal neg m e) = neg
  else f64_of_decimal neg m e = B754_infinity neg.
Proof.
  intros v; destruct m as [|p].
  - assert (E : v = 0) by (unfold v, decimal_value; cbn [Z.of_N]; ring).
    rewrite E, round_0, Rabs_R0, Rlt_bool_true by (auto with typeclass_instances; apply bpow_gt_0).
    cbn [f64_of_decimal B2R is_finite Bsign]; auto.
  - assert (E : exists num den, f64_of_decimal neg (Npos p) e = f64_of_ratio neg num den /\
      v = (if neg then -1 else 1) * (IZR (Zpos num) / IZR (Zpos den))).
    { unfold v, decimal_value; cbn [Z.of_N]; destruct e as [|k|k]; cbn [f64_of_decimal].
      - exists p, 1%positive; split; [reflexivity|]; cbn [powerRZ]; field.
      - exists (p * 10 ^ k)%positive, 1%positive; split; [reflexivity|].
        rewrite powerRZ_pow_pos, Pos2Z.inj_mul, mult_IZR; field.
      - exists p, (10 ^ k)%positive; split; [reflexivity|].
        change (powerRZ 10 (Zneg k)) with (/ powerRZ 10 (Zpos k)); rewrite powerRZ_pow_pos.
        unfold Rdiv; ring. }
    destruct E as (num & den & -> & ->); exact (ratio_correct neg num den).
Qed.

(** Printing and parsing a double gives it back. *)
Lemma decimal_exact s m e (H : SpecFloat.bounded 53 1024 m e = true) M E :
  IZR (Zpos M) * powerRZ 10 E = IZR (Zpos m) * bpow radix2 e ->
  f64_of_decimal s (Npos M) E = B754_finite s m e H.
Proof.
  intros Q; pose proof (decimal_correct s (Npos M) E) as C; cbv zeta in C.
  assert (V : decimal_value s (Npos M) E = B2R (B754_finite s m e H : f64)).
  { unfold decimal_value; cbn [Z.of_N B2R]; rewrite Rmult_assoc, Q; unfold F2R; cbn [Fnum Fexp].
    destruct s; cbn [cond_Zopp]; [rewrite opp_IZR|]; ring. }
  rewrite V in C.
  assert (G : nearest (B2R (B754_finite s m e H : f64)) = B2R (B754_finite s m e H : f64)).
  { apply round_generic; [auto with typeclass_instances|].
    apply (generic_format_B2R 53 1024 (B754_finite s m e H)). }
  rewrite G, Rlt_bool_true in C by apply (abs_B2R_lt_emax 53 1024 (B754_finite s m e H)).
  destruct C as (C1 & C2 & C3); apply B2R_Bsign_inj; [exact C2|reflexivity|exact C1|exact C3].
Qed.

Lemma parse_number_show n : parse_number (show_N n) = Some (n, 0%Z).
Proof.
  unfold parse_number; destruct (scan_show n "" 0 eq_refl eq_refl) as [k Hk].
  rewrite append_empty in Hk; rewrite Hk; reflexivity.
Qed.
Lemma parse_number_show_exp n k :
  parse_number (show_N n ++ "e-" ++ show_N (Npos k)) = Some (n, Zneg k).
Proof.
  unfold parse_number.
  destruct (scan_show n ("e-" ++ show_N (Npos k)) 0 eq_refl eq_refl) as [j Hj]; rewrite Hj.
  cbn [append Nat.add Ascii.eqb orb].
  replace (Ascii.eqb "e" "e" || Ascii.eqb "e" "E")%bool with true by reflexivity.
  unfold parse_exponent; destruct (scan_show (Npos k) "" 0 eq_refl eq_refl) as [i Hi].
  rewrite append_empty in Hi; rewrite Hi; reflexivity.
Qed.

Lemma parse_sign neg s :
  (exists c r d, s = String c r /\ digit_of c = Some d) \/ s = "inf"%string \/ s = "NaN"%string ->
  parse_f64 (show_sign neg ++ s) = parse_unsigned neg s.
Proof.
  intros H; destruct neg; [reflexivity|]; cbn [show_sign append].
  destruct H as [(c & r & d & -> & Hd)|[->| ->]]; [|reflexivity|reflexivity].
  destruct c as [[] [] [] [] [] [] [] []]; try reflexivity; discriminate Hd.
Qed.

Theorem parse_show_f64 : forall x, parse_f64 (show_f64 x) = Some x.
Proof.
  intros [s|s| |s m e H]; cbn [show_f64].
  - rewrite parse_sign by (left; eexists _, _, _; split; reflexivity); reflexivity.
  - rewrite parse_sign by (right; left; reflexivity); reflexivity.
  - reflexivity.
  - destruct e as [|k|k].
    + destruct (show_first (Npos m)) as (c & r & d & E & Hd).
      rewrite parse_sign by (left; rewrite E; eauto).
      unfold parse_unsigned; rewrite parse_number_show; f_equal; apply decimal_exact.
      cbn [powerRZ bpow]; ring.
    + destruct (show_first (Npos (m * 2 ^ k))) as (c & r & d & E & Hd).
      rewrite parse_sign by (left; rewrite E; eauto).
      unfold parse_unsigned; rewrite parse_number_show; f_equal; apply decimal_exact.
      rewrite Pos2Z.inj_mul, mult_IZR, Pos2Z.inj_pow; cbn [powerRZ].
      rewrite <- (IZR_Zpower radix2 (Zpos k)) by lia; cbn [radix_val radix2]; ring.
    + destruct (show_first (Npos (m * 5 ^ k))) as (c & r & d & E & Hd).
      rewrite parse_sign by (left; rewrite E; cbn [append]; eauto).
      unfold parse_unsigned; rewrite parse_number_show_exp; f_equal; apply decimal_exact.
      change (powerRZ 10 (Zneg k)) with (/ powerRZ 10 (Zpos k)); rewrite powerRZ_pow_pos.
      change (bpow radix2 (Zneg k)) with (/ IZR (Zpower_pos 2 k)).
      rewrite Pos2Z.inj_mul, mult_IZR, !Pos2Z.inj_pow.
      change (Zpower_pos 2 k) with (2 ^ Zpos k)%Z.
      replace (10 ^ Zpos k)%Z with (5 ^ Zpos k * 2 ^ Zpos k)%Z by (rewrite <- Z.pow_mul_l; reflexivity).
      rewrite mult_IZR.
      assert (0 < IZR (5 ^ Zpos k)) by (apply IZR_lt, Z.pow_pos_nonneg; lia).
      assert (0 < IZR (2 ^ Zpos k)) by (apply IZR_lt, Z.pow_pos_nonneg; lia).
      field; lra.
Qed.
Print Assumptions parse_show_f64.
