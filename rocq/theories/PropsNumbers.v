(** C81: the numbers of a configuration file. *)
From Coq Require Import Reals Ascii Lia NArith Lra.
From Flocq Require Import Core BinarySingleNaN.
From Verif Require Import Base Num F64 Text.
Close Scope R_scope.
Open Scope nat_scope.
Open Scope string_scope.

(** ** The texts of numbers *)
Definition digit (d : N) : ascii := ascii_of_N (48 + d).
Fixpoint digits (ds : list N) : string :=
  match ds with [] => EmptyString | d :: ds' => String (digit d) (digits ds') end.
Definition are_digits (ds : list N) : Prop := Forall (fun d => (d < 10)%N) ds.
Definition value (ds : list N) : N := fold_left (fun a d => 10 * a + d)%N ds 0%N.

Definition sign_text (neg : bool) (s : string) : Prop :=
  if neg then s = "-" else s = "" \/ s = "+".
(** The digits after the point, with the point; there may be none. *)
Definition fraction_text (fp : list N) (s : string) : Prop := s = "." ++ digits fp \/ (fp = [] /\ s = "").
Definition exponent_text (x : Z) (s : string) : Prop :=
  (s = "" /\ x = 0%Z) \/
  exists letter neg sg ds, (letter = "e" \/ letter = "E") /\ sign_text neg sg /\ are_digits ds /\ ds <> [] /\
    s = letter ++ sg ++ digits ds /\ x = (if neg : bool then - Z.of_N (value ds) else Z.of_N (value ds))%Z.
(** [s] is a decimal number: its sign, the digits before and after the point and
    the exponent. *)
Definition decimal_text (neg : bool) (ip fp : list N) (x : Z) (s : string) : Prop :=
  exists sg f e, sign_text neg sg /\ are_digits ip /\ are_digits fp /\ (ip <> [] \/ fp <> []) /\
    fraction_text fp f /\ exponent_text x e /\ s = sg ++ digits ip ++ f ++ e.
Fixpoint any_case (w : list (ascii * ascii)) (s : string) : Prop :=
  match w, s with
  | [], EmptyString => True
  | (a, b) :: w', String c s' => (c = a \/ c = b) /\ any_case w' s'
  | _, _ => False
  end.
Definition inf_word : list (ascii * ascii) := [("i", "I"); ("n", "N"); ("f", "F")]%char.
Definition infinity_word : list (ascii * ascii) :=
  (inf_word ++ [("i", "I"); ("n", "N"); ("i", "I"); ("t", "T"); ("y", "Y")]%char)%list.
Definition nan_word : list (ascii * ascii) := [("n", "N"); ("a", "A"); ("n", "N")]%char.

(** The number they denote. *)
Definition denoted (neg : bool) (ip fp : list N) (x : Z) : R :=
  ((if neg then -1 else 1) * IZR (Z.of_N (value (ip ++ fp))) * powerRZ 10 (x - Z.of_nat (length fp)))%R.
(** Its nearest double, ties to even; infinite if it is too large. *)
Definition nearest_double (neg : bool) (v : R) (y : f64) : Prop :=
  let r := round radix2 (SpecFloat.fexp 53 1024) ZnearestE v in
  if Rlt_bool (Rabs r) (bpow radix2 1024)
  then B2R y = r /\ is_finite y = true /\ Bsign y = neg
  else y = B754_infinity neg.

(** ** Reading *)
Lemma digit_of_digit d : (d < 10)%N -> digit_of (digit d) = Some d.
Proof.
  intros H; assert (D : In d [0;1;2;3;4;5;6;7;8;9]%N) by (cbn [In]; lia).
  cbn [In] in D; repeat (destruct D as [<-|D]; [reflexivity|]); destruct D.
Qed.
Lemma digit_of_some c d : digit_of c = Some d -> (d < 10)%N /\ c = digit d.
Proof. destruct c as [[] [] [] [] [] [] [] []]; intros H; vm_compute in H; try discriminate H; injection H as <-; split; reflexivity. Qed.

Lemma scan_text ds : are_digits ds -> forall r acc k, starts_with_digit r = false ->
  scan_digits (digits ds ++ r) acc k = (fold_left (fun a d => 10 * a + d)%N ds acc, k + length ds, r).
Proof.
  induction 1 as [|d ds Hd _ IH]; intros r acc k Hr; cbn [digits append scan_digits fold_left length].
  - rewrite Nat.add_0_r; destruct r as [|c r]; cbn in *; [reflexivity|].
    destruct (digit_of c); [discriminate|reflexivity].
  - rewrite (digit_of_digit d Hd), IH, Nat.add_succ_r by exact Hr; reflexivity.
Qed.
Lemma scan_inv s : forall acc k m k' r, scan_digits s acc k = (m, k', r) ->
  exists ds, are_digits ds /\ s = digits ds ++ r /\ m = fold_left (fun a d => 10 * a + d)%N ds acc /\
    k' = (k + length ds)%nat /\ starts_with_digit r = false.
Proof.
  induction s as [|c s IH]; intros acc k m k' r; cbn [scan_digits].
  - intros [= <- <- <-]; exists []; repeat split; [constructor|cbn [length]; lia].
  - destruct (digit_of c) as [d|] eqn:E.
    + intros H; apply IH in H; destruct H as (ds & A & -> & -> & -> & R).
      apply digit_of_some in E; destruct E as [Hd ->].
      exists (d :: ds); repeat split; [constructor; assumption|cbn [length]; lia|exact R].
    + intros [= <- <- <-]; exists []; repeat split; [constructor|cbn [length]; lia|].
      cbn [starts_with_digit]; rewrite E; reflexivity.
Qed.
Lemma fold_app ip fp : fold_left (fun a d => 10 * a + d)%N fp (value ip) = value (ip ++ fp)%list.
Proof. unfold value; rewrite fold_left_app; reflexivity. Qed.

Lemma digits_not_sign d ds c : are_digits (d :: ds) -> digits (d :: ds) = String c (digits ds) ->
  c <> "-"%char /\ c <> "+"%char /\ c <> "."%char.
Proof.
  intros A [= <-]; inversion A as [|? ? Hd _]; subst.
  assert (D : In d [0;1;2;3;4;5;6;7;8;9]%N) by (cbn [In]; lia).
  cbn [In] in D; repeat (destruct D as [<-|D]; [repeat split; discriminate|]); destruct D.
Qed.
Lemma parse_exponent_text neg sg ds : sign_text neg sg -> are_digits ds -> ds <> [] ->
  parse_exponent (sg ++ digits ds) = Some (if neg then - Z.of_N (value ds) else Z.of_N (value ds))%Z.
Proof.
  intros S A NE; pose proof (scan_text ds A "" 0%N 0%nat eq_refl) as SC; rewrite append_empty in SC.
  destruct ds as [|d ds]; [contradiction|].
  unfold parse_exponent; destruct neg; cbn [sign_text] in S.
  - subst sg; cbn [append]; rewrite SC; reflexivity.
  - destruct S as [->| ->]; cbn [append]; [|rewrite SC; reflexivity].
    destruct (digits_not_sign d ds _ A eq_refl) as (N1 & N2 & _).
    change (digits (d :: ds)) with (String (digit d) (digits ds)) in *.
    destruct (digit d) as [[] [] [] [] [] [] [] []]; try congruence; rewrite SC; reflexivity.
Qed.
Lemma exponent_starts x e : exponent_text x e -> starts_with_digit e = false /\
  match e with String "." _ => False | _ => True end.
Proof.
  intros [[-> _]|(letter & neg & sg & ds & [->| ->] & _ & _ & _ & -> & _)]; split; try reflexivity; exact I.
Qed.
Lemma parse_number_text ip fp x f e : are_digits ip -> are_digits fp -> (ip <> [] \/ fp <> []) ->
  fraction_text fp f -> exponent_text x e ->
  parse_number (digits ip ++ f ++ e) = Some (value (ip ++ fp)%list, x - Z.of_nat (length fp))%Z.
Proof.
  intros Ai Af NE F E; destruct (exponent_starts x e E) as [E1 E2].
  assert (Tail : forall k1 k2, (k1 + k2 <> 0)%nat ->
    match k1 + k2 with
    | O => None
    | S _ =>
        match e with
        | EmptyString => Some (value (ip ++ fp)%list, - Z.of_nat k2)%Z
        | String c r =>
            if (Ascii.eqb c "e" || Ascii.eqb c "E")%bool
            then option_map (fun x => (value (ip ++ fp)%list, x - Z.of_nat k2)%Z) (parse_exponent r)
            else None
        end
    end = Some (value (ip ++ fp)%list, x - Z.of_nat k2)%Z).
  { intros k1 k2 HK; destruct (k1 + k2) as [|]; [contradiction|].
    destruct E as [[-> ->]|(letter & neg & sg & ds & L & Sg & A & N & -> & ->)]; [reflexivity|].
    destruct L as [->| ->]; cbn [append]; rewrite (parse_exponent_text neg sg ds Sg A N); reflexivity. }
  unfold parse_number; destruct F as [->|[-> ->]].
  - rewrite append_assoc, scan_text by (exact Ai || reflexivity); cbn [append].
    change (fold_left (fun a d : N => (10 * a + d)%N) ip 0%N) with (value ip).
    rewrite scan_text by (exact Af || exact E1); rewrite fold_app; cbn [Nat.add].
    apply Tail; destruct NE as [N|N]; [destruct ip|destruct fp]; try contradiction; cbn [length]; lia.
  - cbn [append]; rewrite scan_text by (exact Ai || exact E1).
    change (fold_left (fun a d : N => (10 * a + d)%N) ip 0%N) with (value ip).
    destruct NE as [N|N]; [|contradiction]; rewrite app_nil_r in Tail |- *.
    assert (M : match e with String "." r => scan_digits r (value ip) 0 | _ => (value ip, 0%nat, e) end
                = (value ip, 0%nat, e)).
    { destruct e as [|[[] [] [] [] [] [] [] []] e]; try reflexivity; destruct E2. }
    rewrite M; cbn [Nat.add length]; apply Tail; destruct ip; [contradiction|cbn [length]; lia].
Qed.

Lemma nearest_double_unique neg v (y y' : f64) : nearest_double neg v y -> nearest_double neg v y' -> y = y'.
Proof.
  unfold nearest_double; destruct (Rlt_bool _ _).
  - intros (A & B & C) (A' & B' & C'); apply B2R_Bsign_inj; congruence.
  - intros -> ->; reflexivity.
Qed.
Lemma nearest_decimal neg ip fp x :
  nearest_double neg (denoted neg ip fp x) (f64_of_decimal neg (value (ip ++ fp)%list) (x - Z.of_nat (length fp))).
Proof. exact (decimal_correct neg _ _). Qed.

Definition word_text (neg : bool) (w : list (ascii * ascii)) (s : string) : Prop :=
  exists sg r, sign_text neg sg /\ any_case w r /\ s = sg ++ r.

(** What follows the sign. *)
Definition unsigned_start (s : string) : Prop :=
  match s with String "-" _ | String "+" _ => False | _ => True end.
Lemma parse_signed neg sg s : sign_text neg sg -> unsigned_start s -> parse_f64 (sg ++ s) = parse_unsigned neg s.
Proof.
  destruct neg; cbn [sign_text]; [intros -> _; reflexivity|].
  intros [->| ->] U; cbn [append]; [|reflexivity].
  destruct s as [|[[] [] [] [] [] [] [] []] s]; try reflexivity; destruct U.
Qed.
Lemma parse_f64_split s : exists neg sg r, sign_text neg sg /\ s = sg ++ r /\ parse_f64 s = parse_unsigned neg r.
Proof.
  destruct s as [|c s]; [exists false, "", ""; repeat split; left; reflexivity|].
  destruct (ascii_dec c "-") as [->|D]; [exists true, "-", s; repeat split|].
  destruct (ascii_dec c "+") as [->|D']; [exists false, "+", s; repeat split; right; reflexivity|].
  exists false, "", (String c s); repeat split; [left; reflexivity|].
  destruct c as [[] [] [] [] [] [] [] []]; try reflexivity; congruence.
Qed.

Lemma lower_case a b c : In (a, b) [("i", "I"); ("n", "N"); ("f", "F"); ("t", "T"); ("y", "Y"); ("a", "A")]%char ->
  (lower c = a <-> c = a \/ c = b).
Proof.
  intros I; cbn [In] in I.
  repeat (destruct I as [I|I]; [injection I as <- <-|]); try destruct I;
    (split; [|intros [->| ->]; reflexivity]);
    destruct c as [[] [] [] [] [] [] [] []]; intros H; vm_compute in H; try discriminate H;
    first [left; reflexivity|right; reflexivity].
Qed.
Fixpoint letters (w : list (ascii * ascii)) : string :=
  match w with [] => EmptyString | (a, _) :: w' => String a (letters w') end.
Lemma lower_word w : incl w [("i", "I"); ("n", "N"); ("f", "F"); ("t", "T"); ("y", "Y"); ("a", "A")]%char ->
  forall s, lower_string s = letters w <-> any_case w s.
Proof.
  induction w as [|[a b] w IH]; intros I s; destruct s as [|c s]; cbn [lower_string letters any_case];
    try (split; [discriminate|intros []]); [split; [intros _; exact Logic.I|reflexivity]|].
  assert (Iw := IH (fun x Hx => I x (or_intror Hx)) s).
  assert (Ic := lower_case a b c (I _ (or_introl eq_refl))).
  split.
  - intros [= H1 H2]; split; [apply Ic, H1|apply Iw, H2].
  - intros [H1 H2]; apply Ic in H1; apply Iw in H2; congruence.
Qed.
Ltac incl_words := intros x Hx; unfold infinity_word, inf_word, nan_word in Hx; cbn [In List.app] in Hx |- *; tauto.
Lemma inf_lower s : lower_string s = "inf" <-> any_case inf_word s.
Proof. apply (lower_word inf_word); incl_words. Qed.
Lemma infinity_lower s : lower_string s = "infinity" <-> any_case infinity_word s.
Proof. apply (lower_word infinity_word); incl_words. Qed.
Lemma nan_lower s : lower_string s = "nan" <-> any_case nan_word s.
Proof. apply (lower_word nan_word); incl_words. Qed.

Lemma word_not_number w s : any_case w s -> (w = inf_word \/ w = infinity_word \/ w = nan_word) ->
  parse_number s = None /\ unsigned_start s.
Proof.
  intros A W.
  assert (H : exists c r, s = String c r /\ digit_of c = None /\ c <> "."%char /\ c <> "e"%char /\ c <> "E"%char
              /\ c <> "-"%char /\ c <> "+"%char).
  { destruct W as [->|[->| ->]]; destruct s as [|c r]; try destruct A as [];
      destruct H as [->| ->]; eexists _, _; repeat split; try reflexivity; discriminate. }
  destruct H as (c & r & -> & D & P & _ & _ & M & Q); split.
  - unfold parse_number; cbn [scan_digits]; rewrite D.
    destruct c as [[] [] [] [] [] [] [] []]; try reflexivity; congruence.
  - destruct c as [[] [] [] [] [] [] [] []]; cbn [unsigned_start]; try exact I; congruence.
Qed.

Lemma parse_exponent_inv s x : parse_exponent s = Some x ->
  exists neg sg ds, sign_text neg sg /\ are_digits ds /\ ds <> [] /\ s = sg ++ digits ds /\
    x = (if neg : bool then - Z.of_N (value ds) else Z.of_N (value ds))%Z.
Proof.
  intros H.
  assert (C : exists neg sg s', sign_text neg sg /\ s = sg ++ s' /\
    match scan_digits s' 0 0 with
    | (n, S _, EmptyString) => Some (if neg : bool then - Z.of_N n else Z.of_N n)%Z
    | _ => None
    end = Some x).
  { unfold parse_exponent in H; destruct s as [|c s]; [discriminate H|].
    destruct (ascii_dec c "-") as [->|D]; [exists true, "-", s; repeat split; exact H|].
    destruct (ascii_dec c "+") as [->|D']; [exists false, "+", s; repeat split; [right; reflexivity|exact H]|].
    exists false, "", (String c s); split; [left; reflexivity|split; [reflexivity|]].
    destruct c as [[] [] [] [] [] [] [] []]; try exact H; congruence. }
  destruct C as (neg & sg & s' & Sg & -> & C); destruct (scan_digits s' 0 0) as [[n k] r] eqn:E.
  apply scan_inv in E; destruct E as (ds & A & -> & -> & -> & _).
  destruct r as [|c r]; [|cbn [Nat.add] in C; destruct (length ds); discriminate C].
  exists neg, sg, ds; rewrite append_empty; repeat split; try assumption.
  - intros ->; discriminate C.
  - cbn [Nat.add] in C; destruct (length ds); [discriminate C|]; injection C as <-; reflexivity.
Qed.
Lemma parse_number_inv s m e : parse_number s = Some (m, e) ->
  exists ip fp x f t, are_digits ip /\ are_digits fp /\ (ip <> [] \/ fp <> []) /\ fraction_text fp f /\
    exponent_text x t /\ s = digits ip ++ f ++ t /\ m = value (ip ++ fp)%list /\ e = (x - Z.of_nat (length fp))%Z.
Proof.
  intros H; unfold parse_number in H.
  destruct (scan_digits s 0 0) as [[m1 k1] r1] eqn:E1; apply scan_inv in E1.
  destruct E1 as (ip & Ai & -> & -> & -> & R1); fold (value ip) in H.
  assert (C : exists fp f r2, are_digits fp /\ fraction_text fp f /\ r1 = f ++ r2 /\
    match length ip + length fp with
    | O => None
    | S _ =>
        match r2 with
        | EmptyString => Some (value (ip ++ fp)%list, - Z.of_nat (length fp))%Z
        | String c r =>
            if (Ascii.eqb c "e" || Ascii.eqb c "E")%bool
            then option_map (fun x => (value (ip ++ fp)%list, x - Z.of_nat (length fp))%Z) (parse_exponent r)
            else None
        end
    end = Some (m, e)).
  { assert (NP : forall r, r1 = r -> (match r with String "." _ => False | _ => True end) ->
      exists fp f r2, are_digits fp /\ fraction_text fp f /\ r1 = f ++ r2 /\
      match length ip + length fp with
      | O => None
      | S _ =>
        match r2 with
        | EmptyString => Some (value (ip ++ fp)%list, - Z.of_nat (length fp))%Z
        | String c r =>
            if (Ascii.eqb c "e" || Ascii.eqb c "E")%bool
            then option_map (fun x => (value (ip ++ fp)%list, x - Z.of_nat (length fp))%Z) (parse_exponent r)
            else None
        end
      end = Some (m, e)).
    { intros r -> HP; exists [], "", r; split; [constructor|split; [right; split; reflexivity|split; [reflexivity|]]].
      rewrite app_nil_r; destruct r as [|[[] [] [] [] [] [] [] []] r]; try exact H; destruct HP. }
    destruct r1 as [|c r1]; [exact (NP _ eq_refl I)|].
    destruct (ascii_dec c ".") as [->|D].
    - destruct (scan_digits r1 (value ip) 0) as [[m2 k2] r2] eqn:E2; apply scan_inv in E2.
      destruct E2 as (fp & Af & -> & -> & -> & _); rewrite fold_app in H.
      exists fp, ("." ++ digits fp), r2; split; [exact Af|split; [left; reflexivity|split; [reflexivity|exact H]]].
    - apply (NP _ eq_refl); destruct c as [[] [] [] [] [] [] [] []]; try exact I; congruence. }
  clear H R1; destruct C as (fp & f & r2 & Af & F & -> & C).
  destruct (length ip + length fp) eqn:L; [discriminate C|].
  assert (NE : ip <> [] \/ fp <> []).
  { destruct ip; [|left; discriminate]; destruct fp; [discriminate L|right; discriminate]. }
  destruct r2 as [|c r].
  - injection C as <- <-; exists ip, fp, 0%Z, f, ""; repeat split; try assumption; [left; split; reflexivity].
  - destruct (Ascii.eqb c "e" || Ascii.eqb c "E")%bool eqn:Ec; [|discriminate C].
    destruct (parse_exponent r) as [x|] eqn:X; [|discriminate C]; injection C as <- <-.
    apply parse_exponent_inv in X; destruct X as (neg & sg & ds & Sg & A & N & -> & ->).
    eexists ip, fp, _, f, (String c (sg ++ digits ds)); repeat split; try assumption.
    right; exists (String c ""), neg, sg, ds; repeat split; try assumption.
    apply orb_prop in Ec; destruct Ec as [Ec|Ec]; apply Ascii.eqb_eq in Ec; subst c; [left|right]; reflexivity.
Qed.

(** ** C81 *)

(** The texts read as numbers are the decimal numbers, read as their nearest
    doubles, and the words for infinity and for not a number. *)
Theorem C81_numbers s y : parse_f64 s = Some y <->
  (exists neg ip fp x, decimal_text neg ip fp x s /\ nearest_double neg (denoted neg ip fp x) y) \/
  (exists neg, (word_text neg inf_word s \/ word_text neg infinity_word s) /\ y = B754_infinity neg) \/
  (exists neg, word_text neg nan_word s /\ y = B754_nan).
Proof.
  split.
  - intros H; destruct (parse_f64_split s) as (neg & sg & r & Sg & -> & E); rewrite E in H; clear E.
    unfold parse_unsigned in H; destruct (parse_number r) as [[m e]|] eqn:P.
    + apply parse_number_inv in P; destruct P as (ip & fp & x & f & t & Ai & Af & NE & F & X & -> & -> & ->).
      injection H as <-; left; exists neg, ip, fp, x; split; [|apply nearest_decimal].
      exists sg, f, t; repeat split; assumption.
    + destruct ((lower_string r =? "inf") || (lower_string r =? "infinity"))%bool eqn:W.
      * injection H as <-; right; left; exists neg; split; [|reflexivity].
        apply orb_prop in W; destruct W as [W|W]; apply String.eqb_eq in W; [left|right];
          exists sg, r; (split; [exact Sg|split; [|reflexivity]]); [apply inf_lower|apply infinity_lower]; exact W.
      * destruct (lower_string r =? "nan") eqn:N; [|discriminate H]; injection H as <-.
        right; right; exists neg; split; [|reflexivity]; exists sg, r.
        apply String.eqb_eq in N; split; [exact Sg|split; [apply nan_lower, N|reflexivity]].
  - intros [(neg & ip & fp & x & (sg & f & t & Sg & Ai & Af & NE & F & X & ->) & D)|
            [(neg & W & ->)|(neg & (sg & r & Sg & A & ->) & ->)]].
    + assert (P := parse_number_text ip fp x f t Ai Af NE F X).
      rewrite (parse_signed neg sg _ Sg).
      * unfold parse_unsigned; rewrite P; f_equal.
        apply (nearest_double_unique neg (denoted neg ip fp x)); [apply nearest_decimal|exact D].
      * destruct ip as [|d ip].
        { destruct F as [->|[-> ->]]; [exact I|]; destruct NE; contradiction. }
        destruct (digits_not_sign d ip _ Ai eq_refl) as (N1 & N2 & _).
        cbn [digits append]; destruct (digit d) as [[] [] [] [] [] [] [] []]; try exact I; congruence.
    + destruct W as [(sg & r & Sg & A & ->)|(sg & r & Sg & A & ->)].
      * destruct (word_not_number _ _ A (or_introl eq_refl)) as [P U].
        rewrite (parse_signed neg sg _ Sg U); unfold parse_unsigned; rewrite P.
        apply inf_lower in A; rewrite A; reflexivity.
      * destruct (word_not_number _ _ A (or_intror (or_introl eq_refl))) as [P U].
        rewrite (parse_signed neg sg _ Sg U); unfold parse_unsigned; rewrite P.
        apply infinity_lower in A; rewrite A; reflexivity.
    + destruct (word_not_number _ _ A (or_intror (or_intror eq_refl))) as [P U].
      rewrite (parse_signed neg sg _ Sg U); unfold parse_unsigned; rewrite P.
      apply nan_lower in A; rewrite A; reflexivity.
Qed.
Print Assumptions C81_numbers.

(** The texts read as counts are the digits of the integers below 2^64, with or
    without a plus sign. *)
Theorem C81_integers s n : parse_usize s = Some n <->
  exists sg ds, sign_text false sg /\ are_digits ds /\ ds <> [] /\ s = sg ++ digits ds /\
    value ds = N.of_nat n /\ (N.of_nat n < 2 ^ 64)%N.
Proof.
  assert (D : forall r, unsigned_start r -> forall ds, r = digits ds -> parse_usize r = option_map N.to_nat (parse_digits r)).
  { intros r U _ _; unfold parse_usize; destruct r as [|[[] [] [] [] [] [] [] []] r]; try reflexivity; destruct U. }
  split.
  - intros H.
    assert (C : exists sg r m, sign_text false sg /\ s = sg ++ r /\ parse_digits r = Some m /\ N.to_nat m = n).
    { unfold parse_usize in H; destruct s as [|c s]; [discriminate H|].
      destruct (ascii_dec c "+") as [->|Q].
      - destruct (parse_digits s) as [m|] eqn:E; [|discriminate H]; injection H as H.
        exists "+", s, m; repeat split; try assumption; right; reflexivity.
      - assert (E : option_map N.to_nat (parse_digits (String c s)) = Some n)
          by (destruct c as [[] [] [] [] [] [] [] []]; try exact H; congruence).
        destruct (parse_digits (String c s)) as [m|] eqn:P; [|discriminate E]; injection E as E.
        exists "", (String c s), m; repeat split; try assumption; left; reflexivity. }
    destruct C as (sg & r & m & Sg & -> & P & <-); unfold parse_digits in P.
    destruct (scan_digits r 0 0) as [[m' k] t] eqn:E; apply scan_inv in E.
    destruct E as (ds & A & -> & -> & -> & _); fold (value ds) in P; cbn [Nat.add] in P.
    destruct (length ds) eqn:L; [discriminate P|]; destruct t; [|discriminate P].
    destruct (value ds <=? usize_max)%N eqn:B; [|discriminate P]; injection P as <-.
    exists sg, ds; rewrite append_empty, Nnat.N2Nat.id; repeat split; try assumption.
    + intros ->; discriminate L.
    + apply N.leb_le in B; unfold usize_max in B; lia.
  - intros (sg & ds & Sg & A & NE & -> & V & B).
    assert (P : parse_digits (digits ds) = Some (N.of_nat n)).
    { pose proof (scan_text ds A "" 0%N 0%nat eq_refl) as SC; rewrite append_empty in SC.
      unfold parse_digits; rewrite SC; fold (value ds); rewrite V; cbn [Nat.add].
      destruct ds; [contradiction|]; cbn [length].
      replace (N.of_nat n <=? usize_max)%N with true; [reflexivity|].
      symmetry; apply N.leb_le; unfold usize_max; lia. }
    assert (R : option_map N.to_nat (parse_digits (digits ds)) = Some n)
      by (rewrite P; cbn [option_map]; f_equal; apply Nnat.Nat2N.id).
    destruct Sg as [->| ->]; cbn [append]; [|exact R].
    rewrite <- R; destruct ds as [|d ds]; [contradiction|].
    apply (D _ ) with (ds := d :: ds); [|reflexivity].
    destruct (digits_not_sign d ds _ A eq_refl) as (N1 & N2 & _).
    cbn [digits]; destruct (digit d) as [[] [] [] [] [] [] [] []]; try exact I; congruence.
Qed.
Print Assumptions C81_integers.

(** Cases: "-1.50E+2" is -150, "+.5e-1" is a decimal number, ".", "e5" and "1e"
    are not numbers, "iNFinity" and "-inf" are infinities; "+007" is 7, "-1" and
    2^64 are not counts. *)
Definition b64_is (o : option f64) (s : SpecFloat.spec_float) : bool :=
  match o with Some y => match SpecFloat.SFcompare (B2SF y) s with Some Eq => true | _ => false end | None => false end.
Example C81_case :
  decimal_text true [1]%N [5; 0]%N 2%Z "-1.50E+2" /\
  b64_is (parse_f64 "-1.50E+2") (SpecFloat.S754_finite true (150 * 2 ^ 45) (-45)) = true /\
  (exists neg ip fp x, decimal_text neg ip fp x "+.5e-1") /\
  parse_f64 "." = None /\ parse_f64 "e5" = None /\ parse_f64 "1e" = None /\ parse_f64 "1 " = None /\
  parse_f64 "iNFinity" = Some (B754_infinity false) /\ parse_f64 "-inf" = Some (B754_infinity true) /\
  parse_usize "+007" = Some 7 /\ parse_usize "-1" = None /\ parse_usize "18446744073709551616" = None /\
  parse_usize "" = None /\ parse_usize "1.0" = None.
Proof.
  assert (A : forall d, (d <? 10)%N = true -> (d < 10)%N) by (intros d; apply N.ltb_lt).
  split; [|split; [vm_compute; reflexivity|split]].
  - exists "-", ".50", "E+2"; repeat split.
    + repeat constructor; apply A; reflexivity.
    + repeat constructor; apply A; reflexivity.
    + left; discriminate.
    + left; reflexivity.
    + right; exists "E", false, "+", [2%N]; repeat split; try (right; reflexivity); try discriminate.
      repeat constructor; apply A; reflexivity.
  - exists false, [], [5%N], (-1)%Z, "+", ".5", "e-1"; repeat split.
    + right; reflexivity.
    + constructor.
    + repeat constructor; apply A; reflexivity.
    + right; discriminate.
    + left; reflexivity.
    + right; exists "e", true, "-", [1%N]; repeat split; try (left; reflexivity); try discriminate.
      repeat constructor; apply A; reflexivity.
  - repeat split; vm_compute; reflexivity.
Qed.
