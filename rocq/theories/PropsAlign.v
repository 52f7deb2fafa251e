(** C78: the columns of the tables of the log. *)
From Coq Require Import Ascii Lia NArith DecimalFacts DecimalN DecimalString.
From Coq Require Import Floats.SpecFloat.
From Flocq Require Import BinarySingleNaN.
From Verif Require Import Base Num Linalg Residuals Iteratives UserModel Jacobian Solver F64 Text Display
  PropsDisplay PropsReading.
Open Scope string_scope.

(** The positions at which the characters [sep] occur in a line. *)
Fixpoint marks_from (sep : ascii -> bool) (k : nat) (l : string) : list nat :=
  match l with
  | EmptyString => []
  | String c l' => ((if sep c then [k] else []) ++ marks_from sep (S k) l')%list
  end.
Definition marks (sep : ascii -> bool) (l : string) : list nat := marks_from sep 0 l.
(** The lines that start with one of the characters [start]. *)
Definition starts (start : ascii -> bool) (l : string) : bool :=
  match l with String c _ => start c | EmptyString => false end.
Definition lines_of (start : ascii -> bool) (t : string) : list string :=
  filter (starts start) (pieces is_nl t).
(** These lines have the characters [sep] at the same places. *)
Definition aligned (start sep : ascii -> bool) (t : string) : Prop :=
  forall l l', In l (lines_of start t) -> In l' (lines_of start t) -> marks sep l = marks sep l'.

(** The bars, also at the corners; the bars and the equal signs. *)
Definition bar (c : ascii) : bool := Ascii.eqb c "|" || Ascii.eqb c "+".
Definition row_start (c : ascii) : bool := Ascii.eqb c "|".
Definition equal (c : ascii) : bool := Ascii.eqb c "|" || Ascii.eqb c "=".
(** The tables of a text are aligned: rules, titles and rows. *)
Definition columns_aligned (t : string) : Prop := aligned bar bar t.

Section Marks.
Context (start sep : ascii -> bool).
Definition at_marks (ms : list nat) (t : string) : Prop :=
  forall l, In l (lines_of start t) -> marks sep l = ms.
Lemma at_marks_aligned ms t : at_marks ms t -> aligned start sep t.
Proof. intros H l l' Hl Hl'; rewrite (H l Hl), (H l' Hl'); reflexivity. Qed.
Lemma lines_line l s : free is_nl l = true ->
  lines_of start (l ++ nl ++ s) = ((if starts start l then [l] else []) ++ lines_of start s)%list.
Proof.
  intros E; unfold lines_of, nl; cbn [append].
  rewrite pieces_app by reflexivity; rewrite filter_app; f_equal.
  destruct l as [|c l]; [reflexivity|].
  rewrite (pieces_free _ _ E) by discriminate; reflexivity.
Qed.
Lemma at_marks_line ms l s : free is_nl l = true -> (starts start l = true -> marks sep l = ms) ->
  at_marks ms s -> at_marks ms (l ++ nl ++ s).
Proof.
  intros F H Hs x Hx; rewrite lines_line in Hx by exact F; apply in_app_or in Hx.
  destruct Hx as [Hx|Hx]; [|exact (Hs x Hx)].
  destruct (starts start l); [|contradiction]; destruct Hx as [<-|[]]; exact (H eq_refl).
Qed.
Lemma at_marks_nl ms s : at_marks ms s -> at_marks ms (nl ++ s).
Proof. apply (at_marks_line ms ""); [reflexivity|discriminate]. Qed.
Lemma at_marks_empty ms : at_marks ms "".
Proof. intros l []. Qed.

Lemma marks_app a : forall k b,
  marks_from sep k (a ++ b) = (marks_from sep k a ++ marks_from sep (k + String.length a) b)%list.
Proof.
  induction a as [|c a IH]; intros k b; cbn [append marks_from String.length].
  - rewrite Nat.add_0_r; reflexivity.
  - rewrite IH, Nat.add_succ_r, app_assoc; reflexivity.
Qed.
Lemma marks_none a : free sep a = true -> forall k, marks_from sep k a = [].
Proof.
  induction a as [|c a IH]; intros H k; cbn [marks_from]; [reflexivity|].
  unfold free in H; cbn [all] in H; apply andb_prop in H; destruct H as [Hc H].
  apply negb_true_iff in Hc; rewrite Hc, (IH H); reflexivity.
Qed.
End Marks.

Lemma length_app a b : String.length (a ++ b) = String.length a + String.length b.
Proof. induction a as [|c a IH]; cbn; [reflexivity|rewrite IH; reflexivity]. Qed.
Lemma length_times n : String.length (times n " ") = n.
Proof. induction n as [|n IH]; cbn; [reflexivity|rewrite IH; reflexivity]. Qed.
Lemma length_pad n a : String.length (pad n a) = Nat.max n (String.length a).
Proof. unfold pad; rewrite length_app, length_times; lia. Qed.
Lemma length_pad_left n a : String.length (pad_left n a) = Nat.max n (String.length a).
Proof. unfold pad_left; rewrite length_app, length_times; lia. Qed.
Lemma free_spaces sep n : sep " "%char = false -> free sep (times n " ") = true.
Proof.
  intros H; induction n as [|n IH]; [reflexivity|].
  cbn [times append]; unfold free; cbn [all]; rewrite H; exact IH.
Qed.
Lemma free_padded sep n a : sep " "%char = false -> free sep a = true -> free sep (pad n a) = true.
Proof. intros H Ha; unfold pad; rewrite free_app, Ha, (free_spaces _ _ H); reflexivity. Qed.
Lemma free_padded_left sep n a : sep " "%char = false -> free sep a = true -> free sep (pad_left n a) = true.
Proof. intros H Ha; unfold pad_left; rewrite free_app, Ha, (free_spaces _ _ H); reflexivity. Qed.
Lemma word_free sep a : (forall c, is_gap c = false -> sep c = false) -> is_word a -> free sep a = true.
Proof.
  intros Hs [_ H]; unfold free; apply (all_weaken (fun c => negb (is_gap c) && negb (is_nl c)) _ a); [|exact H].
  intros c Hc; apply andb_prop in Hc; destruct Hc as [Hc _]; apply negb_true_iff in Hc.
  rewrite (Hs c Hc); reflexivity.
Qed.
Lemma gap_bar c : is_gap c = false -> bar c = false.
Proof.
  unfold is_gap, bar; intros H; repeat (apply orb_false_iff in H; destruct H as [H ?]).
  apply orb_false_iff; split; assumption.
Qed.
Lemma gap_equal c : is_gap c = false -> equal c = false.
Proof.
  unfold is_gap, equal; intros H; repeat (apply orb_false_iff in H; destruct H as [H ?]).
  apply orb_false_iff; split; assumption.
Qed.

(** *** Numbers of few digits are short *)
Lemma uint_value_ge u : forall acc, (acc * 10 ^ N.of_nat (uint_length u) <= uint_value u acc)%N.
Proof.
  induction u as [|u IH|u IH|u IH|u IH|u IH|u IH|u IH|u IH|u IH|u IH]; intros acc;
    cbn [uint_length uint_value];
    [change (10 ^ N.of_nat 0)%N with 1%N; lia|..];
    (eapply N.le_trans; [|apply IH]; rewrite Nat2N.inj_succ, N.pow_succ_r', N.mul_assoc;
     apply N.mul_le_mono_r; lia).
Qed.
Lemma uint_length_string u : String.length (NilEmpty.string_of_uint u) = uint_length u.
Proof. induction u; cbn; congruence. Qed.
Lemma show_N_length n k : (n < 10 ^ N.of_nat k)%N -> (1 <= k)%nat -> (String.length (show_N n) <= k)%nat.
Proof.
  intros Hn Hk; unfold show_N; rewrite uint_length_string.
  assert (V : uint_value (N.to_uint n) 0 = n) by (rewrite uint_value_of; apply DecimalN.Unsigned.of_to).
  assert (U : N.to_uint n = Decimal.unorm (N.to_uint n)).
  { rewrite <- DecimalN.Unsigned.to_of, DecimalN.Unsigned.of_to; reflexivity. }
  revert V U; generalize (N.to_uint n); intros u V U.
  assert (D : forall d u', (1 <= d)%N -> uint_value u' d = n -> (S (uint_length u') <= k)%nat).
  { intros d u' Hd Hv; pose proof (uint_value_ge u' d) as G; rewrite Hv in G.
    assert (P : (10 ^ N.of_nat (uint_length u') < 10 ^ N.of_nat k)%N).
    { eapply N.le_lt_trans; [|exact Hn]; eapply N.le_trans; [|exact G].
      rewrite <- (N.mul_1_l (10 ^ _)) at 1; apply N.mul_le_mono_r, Hd. }
    apply N.pow_lt_mono_r_iff in P; lia. }
  destruct u as [|u'|u'|u'|u'|u'|u'|u'|u'|u'|u']; cbn [uint_length]; [lia| |..];
    try (eapply D; [|exact V]; lia).
  unfold Decimal.unorm in U; cbn [Decimal.nzhead] in U.
  destruct (Decimal.nzhead u') eqn:E; try discriminate U.
  - injection U as ->; exact Hk.
  - exfalso; exact (nzhead_nonzero u' _ E).
Qed.
Lemma show_usize_length i k n : (i < n)%nat -> (N.of_nat n <= 10 ^ N.of_nat k)%N -> (1 <= k)%nat ->
  (String.length (show_usize i) <= k)%nat.
Proof. intros Hi Hn Hk; apply show_N_length; [lia|exact Hk]. Qed.

(** *** Rows *)
Lemma marks_row sep cells : sep "|"%char = true -> sep " "%char = false -> forall k rest,
  marks_from sep k (row cells rest)
  = (fix go k cells := match cells with
     | [] => marks_from sep k rest
     | (n, t) :: cells' => k :: marks_from sep (2 + k) t ++ go (2 + k + Nat.max n (String.length t)) cells'
     end%list) k cells.
Proof.
  intros Hb Hs; induction cells as [|[n t] cells IH]; intros k rest; [reflexivity|].
  cbn [row append marks_from]; rewrite Hb, Hs; cbn [List.app]; f_equal.
  unfold pad; rewrite append_assoc, !marks_app, (marks_none _ (times _ " ")) by (apply free_spaces, Hs).
  rewrite length_times, <- IH; cbn [List.app]; f_equal; f_equal; lia.
Qed.

Lemma short n t : (String.length t <= n)%nat -> Nat.max n (String.length t) = n.
Proof. lia. Qed.

Section Tables.
Context (show : f64 -> string) (W : forall x, is_word (show x)).

Lemma usize_word n : is_word (show_usize n).
Proof. apply show_usize_word. Qed.

(** *** The points *)
Definition shorter (n : nat) (l : list f64) : Prop := forall a, In a l -> (String.length (show a) <= n)%nat.

Definition iteration_bars : list nat := [0; 8; 40; 105; 139]%nat.
Lemma values_length l r : (String.length (show l) <= 30)%nat -> (String.length (show r) <= 30)%nat ->
  String.length (values_str_eq show l r) = 63%nat.
Proof.
  intros Hl Hr; unfold values_str_eq; rewrite !length_app, length_pad, length_pad_left, !short by assumption.
  reflexivity.
Qed.
Lemma values_marks sep l r k : (forall c, is_gap c = false -> sep c = false) -> sep " "%char = false ->
  (String.length (show l) <= 30)%nat ->
  marks_from sep k (values_str_eq show l r) = if sep "="%char then [(31 + k)%nat] else [].
Proof.
  intros Hg Hs Hl; unfold values_str_eq; rewrite marks_app, (marks_none _ (pad 30 _)) by
    (apply free_padded; [exact Hs|apply word_free; [exact Hg|apply W]]).
  rewrite length_pad, short by exact Hl; cbn [List.app append marks_from]; rewrite Hs.
  rewrite (marks_none _ (pad_left 30 _)) by (apply free_padded_left; [exact Hs|apply word_free; [exact Hg|apply W]]).
  destruct (sep "="%char); [|reflexivity]; cbn [List.app]; do 2 f_equal; lia.
Qed.
Lemma iteration_row_marks sep i a l r e :
  (forall c, is_gap c = false -> sep c = false) -> sep " "%char = false -> sep "|"%char = true ->
  (String.length (show_usize i) <= 6)%nat -> (String.length (show a) <= 30)%nat ->
  (String.length (show l) <= 30)%nat -> (String.length (show r) <= 30)%nat ->
  (String.length (show e) <= 30)%nat ->
  marks sep (row [(6%nat, show_usize i); (30%nat, show a); (30%nat, values_str_eq show l r);
                  (30%nat, show e)] "  |")
  = if sep "="%char then [0; 8; 40; 73; 105; 139]%nat else iteration_bars.
Proof.
  intros Hg Hs Hb Hi Ha Hl Hr He; unfold marks; rewrite marks_row by assumption.
  rewrite values_length by assumption; rewrite !short by assumption.
  rewrite values_marks by assumption.
  rewrite !marks_none by (apply word_free; [exact Hg|first [apply W|apply usize_word]]).
  cbn [marks_from]; rewrite Hs, Hb; destruct (sep "="%char); reflexivity.
Qed.

Definition iteration_rule : string :=
  "+-------+-------------------------------+----------------------------------------------------------------+---------------------------------+".
Definition iteration_heading : string :=
  "| Id    |           Iteratives          |        Left                    =                Right          |         Stopping criteria       |".
Definition point_fits (x : vec f64) (v : residuals_values f64) (errors : vec f64) : Prop :=
  shorter 30 x /\ shorter 30 (rv_left v) /\ shorter 30 (rv_right v) /\ shorter 30 errors /\
  (N.of_nat (length x) <= 1000000)%N.

Section Points.
Context (start sep : ascii -> bool) (ms : list nat).
Context (Hg : forall c, is_gap c = false -> sep c = false) (Hs : sep " "%char = false) (Hb : sep "|"%char = true).
Context (Hms : ms = if sep "="%char then [0; 8; 40; 73; 105; 139]%nat else iteration_bars).
Context (Hrule : starts start iteration_rule = true -> marks sep iteration_rule = ms).
Context (Hhead : starts start iteration_heading = true -> marks sep iteration_heading = ms).

Lemma iteration_rows_marks : forall x errors left right i t s,
  (forall k, (k < length x)%nat -> (String.length (show_usize (i + k)) <= 6)%nat) ->
  shorter 30 x -> shorter 30 left -> shorter 30 right -> shorter 30 errors ->
  iteration_rows show i x left right errors = Ret t -> at_marks start sep ms s ->
  at_marks start sep ms (t ++ s).
Proof.
  induction x as [|a x IH]; intros errors left right i t s Hi Sx Sl Sr Se; cbn [iteration_rows].
  { intros E; apply Ret_inj in E; subst t; intros H; exact H. }
  destruct errors as [|e errors].
  { intros E; apply Ret_inj in E; subst t; intros H; exact H. }
  destruct left as [|l left]; [discriminate|]; destruct right as [|r right]; [discriminate|].
  destruct (iteration_rows show (S i) x left right errors) as [rest|] eqn:E; [|discriminate].
  cbn [bind]; intros E0; apply Ret_inj in E0; subst t; intros H.
  rewrite !append_assoc.
  assert (R : at_marks start sep ms (rest ++ s)).
  { apply (IH errors left right (S i) rest s); try exact E; try exact H.
    - intros k Hk; rewrite Nat.add_succ_comm; apply Hi; cbn [length]; lia.
    - intros y Hy; apply Sx; right; exact Hy.
    - intros y Hy; apply Sl; right; exact Hy.
    - intros y Hy; apply Sr; right; exact Hy.
    - intros y Hy; apply Se; right; exact Hy. }
  unfold iteration_line; rewrite append_assoc; fold iteration_rule.
  change (at_marks start sep ms (row [(6%nat, show_usize i); (30%nat, show a); (30%nat, values_str_eq show l r);
                        (30%nat, show e)] ("  |" ++ nl ++ iteration_rule ++ nl ++ rest ++ s))).
  rewrite <- row_app; apply at_marks_line.
  - apply row_free; [|reflexivity]; cbn [forallb snd].
    rewrite !(word_free_nl _ (W _)), (word_free_nl _ (usize_word _)).
    unfold values_str_eq; rewrite !free_app, free_pad, free_pad_left, !(word_free_nl _ (W _)); reflexivity.
  - intros _; rewrite Hms; apply iteration_row_marks; try assumption.
    + rewrite <- (Nat.add_0_r i); apply Hi; cbn [length]; lia.
    + apply Sx; left; reflexivity.
    + apply Sl; left; reflexivity.
    + apply Sr; left; reflexivity.
    + apply Se; left; reflexivity.
  - apply at_marks_line; [reflexivity|exact Hrule|exact R].
Qed.
Context (Hmax : start "M"%char = false).
Lemma iteration_marks x v errors t : point_fits x v errors ->
  display_iteration show x v errors = Ret t -> at_marks start sep ms t.
Proof.
  intros (Sx & Sl & Sr & Se & Hn); unfold display_iteration.
  destruct (iteration_rows show 0 x (rv_left v) (rv_right v) errors) as [rows|] eqn:E; [|discriminate].
  cbn [bind]; intros E0; apply Ret_inj in E0; subst t.
  unfold iteration_line, iteration_title; rewrite !append_assoc; fold iteration_rule iteration_heading.
  rewrite <- (append_assoc "Max error: ").
  apply at_marks_line.
  - rewrite free_app, (word_free_nl _ (W _)); reflexivity.
  - cbn [append starts]; rewrite Hmax; discriminate.
  - apply at_marks_nl.
    apply at_marks_line; [reflexivity|exact Hrule|].
    apply at_marks_line; [reflexivity|exact Hhead|].
    apply at_marks_line; [reflexivity|exact Hrule|].
    apply (iteration_rows_marks x errors (rv_left v) (rv_right v) 0 rows); try assumption.
    + intros k Hk; apply (show_usize_length _ 6 (length x)); [exact Hk|exact Hn|lia].
    + apply at_marks_nl, at_marks_empty.
Qed.
End Points.

Lemma iteration_aligned x v errors t : point_fits x v errors ->
  display_iteration show x v errors = Ret t ->
  columns_aligned t /\ aligned row_start equal t.
Proof.
  intros F E; split; eapply at_marks_aligned.
  - eapply (iteration_marks bar bar iteration_bars); try eassumption; try reflexivity; apply gap_bar.
  - eapply (iteration_marks row_start equal [0; 8; 40; 73; 105; 139]%nat);
      try eassumption; try reflexivity; try discriminate; apply gap_equal.
Qed.

(** *** The variables *)
Definition limits_fit (p : iterative_params f64) : Prop :=
  shorter 13 [max_step_abs p; max_step_rel p; min_value p; max_value p].
Definition limits_fd_fit (p : iterative_params_fd f64) : Prop :=
  limits_fit (fd_params p) /\ shorter 13 [fd_dx_abs p; fd_dx_rel p].
Definition iteratives_bars (fd : bool) : list nat :=
  ([0; 12; 27; 42; 57; 72] ++ if fd then [90; 105; 120] else [])%nat%list.

Lemma free_bar_show a : free bar (show a) = true.
Proof. apply word_free; [apply gap_bar|apply W]. Qed.
Lemma cell_marks n t k s : free bar t = true -> (String.length t <= n)%nat ->
  marks_from bar k (" " ++ pad n t ++ "|" ++ s) = ((1 + n + k)%nat :: marks_from bar (2 + n + k) s)%list.
Proof.
  intros F L; cbn [append marks_from]; change (bar " ") with false; cbn [List.app].
  rewrite marks_app, marks_none by (apply free_padded; [reflexivity|exact F]).
  rewrite length_pad, short by exact L; cbn [List.app marks_from]; change (bar "|") with true.
  cbn [List.app]; f_equal; [lia|f_equal; lia].
Qed.
Lemma limits_marks p k s : limits_fit p ->
  marks_from bar k (display_limits show p ++ s)
  = ([14 + k; 29 + k; 44 + k; 59 + k] ++ marks_from bar (60 + k) s)%nat%list.
Proof.
  intros F; unfold display_limits; rewrite !append_assoc.
  rewrite !cell_marks; try apply free_bar_show; try (apply F; cbn [In]; tauto).
  cbn [List.app]; repeat (f_equal; [lia|]); f_equal; lia.
Qed.
Lemma limits_fd_marks p k : limits_fd_fit p ->
  marks_from bar k (display_limits_fd show p)
  = [14 + k; 29 + k; 44 + k; 59 + k; 77 + k; 92 + k; 107 + k]%nat%list.
Proof.
  intros [F G]; unfold display_limits_fd; rewrite <- (append_empty "|") at 3.
  rewrite limits_marks by exact F.
  rewrite !cell_marks; try apply free_bar_show; try (apply G; cbn [In]; tauto);
    try (destruct (fd_method p); cbn; (reflexivity || lia)).
Qed.

Lemma iteratives_line_marks fd ms s : ms = iteratives_bars fd -> at_marks bar bar ms s ->
  at_marks bar bar ms (iteratives_line fd ++ s).
Proof.
  intros -> H; unfold iteratives_line, column; rewrite !append_assoc.
  destruct fd.
  - apply (at_marks_line bar bar _ "+-----------+--------------+--------------+--------------+--------------+-----------------+--------------+--------------+");
      [reflexivity|reflexivity|exact H].
  - apply (at_marks_line bar bar _ "+-----------+--------------+--------------+--------------+--------------+");
      [reflexivity|reflexivity|exact H].
Qed.
Lemma iteratives_title_marks fd ms s : ms = iteratives_bars fd -> at_marks bar bar ms s ->
  at_marks bar bar ms (iteratives_title fd ++ s).
Proof.
  intros -> H; unfold iteratives_title; rewrite !append_assoc.
  destruct fd.
  - apply (at_marks_line bar bar _ "| Iterative | max_step_abs | max_step_rel | min_value    | max_value    | perturbation    | dx_abs       | dx_rel       |");
      [reflexivity|reflexivity|exact H].
  - apply (at_marks_line bar bar _ "| Iterative | max_step_abs | max_step_rel | min_value    | max_value    |");
      [reflexivity|reflexivity|exact H].
Qed.
Lemma iteratives_rows_marks fd : forall texts i s,
  (forall k, (k < length texts)%nat -> (String.length (show_usize (i + k)) <= 10)%nat) ->
  (forall t, In t texts -> free is_nl t = true /\ marks_from bar 13 t = skipn 2 (iteratives_bars fd)) ->
  at_marks bar bar (iteratives_bars fd) s ->
  at_marks bar bar (iteratives_bars fd) (iteratives_rows fd i texts ++ s).
Proof.
  induction texts as [|t texts IH]; intros i s Hi Ht H; [exact H|].
  destruct (Ht t (or_introl eq_refl)) as [Ft Mt].
  assert (Hi0 : (String.length (show_usize i) <= 10)%nat)
    by (rewrite <- (Nat.add_0_r i); apply Hi; cbn [length]; lia).
  cbn [iteratives_rows].
  assert (E : forall a b c d : string, (a ++ b ++ c ++ t ++ nl ++ iteratives_line fd ++ d) ++ s
              = (a ++ b ++ c ++ t) ++ nl ++ iteratives_line fd ++ d ++ s)
    by (intros; rewrite !append_assoc; reflexivity).
  rewrite E; apply at_marks_line.
  - rewrite !free_app, free_pad, (word_free_nl _ (usize_word _)), Ft; reflexivity.
  - intros _; unfold marks.
    change ("| " ++ pad 10 (show_usize i) ++ "|" ++ t) with (String "|" (" " ++ pad 10 (show_usize i) ++ "|" ++ t)).
    cbn [marks_from]; change (bar "|") with true; cbn [List.app].
    rewrite cell_marks; [|apply word_free; [apply gap_bar|apply usize_word]|exact Hi0].
    cbn [Nat.add]; rewrite Mt; destruct fd; reflexivity.
  - apply iteratives_line_marks; [reflexivity|]; apply IH; [|intros t' I; apply Ht; right; exact I|exact H].
    intros k Hk; rewrite Nat.add_succ_comm; apply Hi; cbn [length]; lia.
Qed.
Lemma iteratives_aligned {A} fd (disp : A -> string) l t :
  (forall a, In a l -> free is_nl (disp a) = true /\ marks_from bar 13 (disp a) = skipn 2 (iteratives_bars fd)) ->
  (N.of_nat (length l) <= 10 ^ 10)%N ->
  display_iteratives (fun _ => fd) disp l = Ret t -> columns_aligned t.
Proof.
  intros H Hn; unfold display_iteratives.
  destruct (index l 0) as [a|]; [|discriminate]; cbn [bind]; intros E; apply Ret_inj in E; subst t.
  apply (at_marks_aligned bar bar (iteratives_bars fd)).
  apply at_marks_line; [reflexivity|discriminate|]; apply at_marks_line; [reflexivity|discriminate|].
  apply at_marks_nl.
  apply iteratives_line_marks; [reflexivity|]; apply iteratives_title_marks; [reflexivity|].
  apply iteratives_line_marks; [reflexivity|].
  apply iteratives_rows_marks.
  - intros k Hk; rewrite map_length in Hk; apply (show_usize_length _ 10 (length l)); [exact Hk|exact Hn|lia].
  - intros t I; apply in_map_iff in I; destruct I as (b & <- & Ib); apply H, Ib.
  - apply at_marks_nl, at_marks_empty.
Qed.

(** *** The residuals *)
Definition residuals_rule : string :=
  "+-------------------+--------------------------+--------------------------+".
Definition residuals_bars : list nat := [0; 20; 47; 74]%nat.
Lemma residuals_rows_marks : forall stopping update i t s,
  (forall k, (k < length stopping)%nat -> (String.length (show_usize (i + k)) <= 18)%nat) ->
  residuals_rows i stopping update = Ret t -> at_marks bar bar residuals_bars s ->
  at_marks bar bar residuals_bars (t ++ s).
Proof.
  induction stopping as [|a stopping IH]; intros update i t s Hi; cbn [residuals_rows].
  { intros E; apply Ret_inj in E; subst t; intros H; exact H. }
  destruct update as [|u update]; [discriminate|].
  destruct (residuals_rows (S i) stopping update) as [rest|] eqn:E; [|discriminate].
  cbn [bind]; intros E0; apply Ret_inj in E0; subst t; intros H.
  rewrite !append_assoc.
  change (at_marks bar bar residuals_bars
    (row [(18%nat, show_usize i); (25%nat, display_norm a); (25%nat, display_norm u)] ("|" ++ nl ++ rest ++ s))).
  rewrite <- row_app; apply at_marks_line.
  - apply row_free; [|reflexivity]; cbn [forallb snd].
    rewrite (word_free_nl _ (usize_word _)); destruct a, u; reflexivity.
  - intros _; unfold marks; rewrite marks_row by reflexivity.
    rewrite (short 18) by (rewrite <- (Nat.add_0_r i); apply Hi; cbn [length]; lia).
    rewrite (marks_none _ (show_usize i)) by (apply word_free; [apply gap_bar|apply usize_word]).
    destruct a, u; reflexivity.
  - apply (IH update (S i)); [|exact E|exact H].
    intros k Hk; rewrite Nat.add_succ_comm; apply Hi; cbn [length]; lia.
Qed.
Lemma residuals_aligned c t : (N.of_nat (length (stopping_criterias c)) <= 10 ^ 18)%N ->
  display_residuals_config c = Ret t -> columns_aligned t.
Proof.
  intros Hn; unfold display_residuals_config.
  destruct (residuals_rows 0 _ _) as [rows|] eqn:E; [|discriminate].
  cbn [bind]; intros E0; apply Ret_inj in E0; subst t.
  unfold residuals_line; rewrite !append_assoc; fold residuals_rule.
  apply (at_marks_aligned bar bar residuals_bars).
  apply at_marks_line; [reflexivity|discriminate|]; apply at_marks_line; [reflexivity|discriminate|].
  apply at_marks_nl; apply at_marks_line; [reflexivity|reflexivity|].
  apply (at_marks_line bar bar _ "| Residual number   | Stopping criteria        | Update method            |");
    [reflexivity|reflexivity|].
  apply at_marks_line; [reflexivity|reflexivity|].
  apply (residuals_rows_marks (stopping_criterias c) (update_methods c) 0 rows); [|exact E|].
  { intros k Hk; apply (show_usize_length _ 18 (length (stopping_criterias c))); [exact Hk|exact Hn|lia]. }
  apply at_marks_line; [reflexivity|reflexivity|]; apply at_marks_nl, at_marks_empty.
Qed.
End Tables.

(** *** The table of the parameters *)
Lemma free_bar_method m : free bar (display_method m) = true.
Proof. destruct m as [|[|[]|[]]]; reflexivity. Qed.
Lemma in_lines start l s s' : free is_nl l = true -> starts start l = true ->
  In l (lines_of start (s' ++ nl ++ l ++ nl ++ s)).
Proof.
  intros F H; unfold lines_of; apply filter_In; split; [|exact H].
  unfold nl; cbn [append]; rewrite !pieces_app by reflexivity.
  apply in_or_app; right; apply in_or_app; left.
  rewrite pieces_free; [left; reflexivity|exact F|intros ->; discriminate].
Qed.

(** ** C78 *)

(** In the tables of the points, of the variables and of the residuals the bars
    are at the same places in all rows, titles and rules, and the equal signs too,
    as long as the numbers fit. *)
Theorem C78_points x v errors t : point_fits display_f64 x v errors ->
  display_iteration display_f64 x v errors = Ret t ->
  columns_aligned t /\ aligned row_start equal t.
Proof. apply iteration_aligned, display_f64_word. Qed.

Theorem C78_variables l t :
  (forall p, In p l -> limits_fit display_f64 p) -> (N.of_nat (length l) <= 10 ^ 10)%N ->
  display_iteratives (fun _ => false) (display_limits display_f64) l = Ret t -> columns_aligned t.
Proof.
  intros F Hn; apply iteratives_aligned; [|exact Hn].
  intros p I; split; [apply limits_free, display_f64_word|].
  rewrite <- (append_empty (display_limits _ _)), limits_marks; [reflexivity|apply display_f64_word|apply F, I].
Qed.
Theorem C78_variables_fd l t :
  (forall p, In p l -> limits_fd_fit display_f64 p) -> (N.of_nat (length l) <= 10 ^ 10)%N ->
  display_iteratives (fun _ => true) (display_limits_fd display_f64) l = Ret t -> columns_aligned t.
Proof.
  intros F Hn; apply iteratives_aligned; [|exact Hn].
  intros p I; split; [apply limits_fd_free, display_f64_word|].
  rewrite limits_fd_marks; [reflexivity|apply display_f64_word|apply F, I].
Qed.
Theorem C78_residuals c t : (N.of_nat (length (stopping_criterias c)) <= 10 ^ 18)%N ->
  display_residuals_config c = Ret t -> columns_aligned t.
Proof. apply residuals_aligned. Qed.

(** In the table of the parameters they never are: parameters.rs:93-134 pads the
    number of iterations to 17 characters where the rules leave 16. *)
Theorem C78_parameters_refuted p : ~ columns_aligned (display_parameters display_f64 p).
Proof.
  intros H.
  set (line := row [(15%nat, show_usize (sp_problem_size p)); (17%nat, show_usize (sp_max_iter p));
                    (15%nat, display_f64 (sp_tolerance p)); (19%nat, show_bool (sp_damping p));
                    (20%nat, display_method (sp_resolution_method p))] "|").
  set (rule := "+----------------+-----------------+-----------------+--------------------+---------------------+").
  assert (E : exists s s', display_parameters display_f64 p = (s ++ nl ++ rule ++ nl ++ line ++ nl ++ s')).
  { eexists ("Solver parameters" ++ nl ++ "=================" ++ nl ++ nl ++ rule ++ nl ++
      "|  Problem size  |  Max iteration  |    Tolerance    |  Damping activated |  Resolution Method  |"), _.
    unfold display_parameters, parameters_line; fold rule; rewrite !append_assoc; unfold line; rewrite row_app.
    cbn [row]; rewrite ?append_assoc; reflexivity. }
  destruct E as (s & s' & E); rewrite E in H.
  assert (M : marks bar rule = marks bar line).
  { apply H.
    - apply in_lines; reflexivity.
    - rewrite <- (append_assoc s), <- (append_assoc (s ++ nl)); apply in_lines; [|reflexivity].
      apply row_free; [|reflexivity]; cbn [forallb snd].
      rewrite !(word_free_nl _ (show_usize_word _)), (word_free_nl _ (display_f64_word _)), free_bool, free_method.
      reflexivity. }
  apply (f_equal (fun l => nth 2 l 0%nat)) in M.
  unfold line, marks in M; rewrite marks_row in M by reflexivity.
  rewrite !(marks_none bar (show_usize _)) in M by (apply word_free; [apply gap_bar|apply show_usize_word]).
  cbn [List.app nth Nat.add] in M; change (nth 2 (marks_from bar 0 rule) 0%nat) with 35%nat in M.
  lia.
Qed.

(** *** The matrices *)
Section Matrices.
Context (show : f64 -> string) (W : forall x, is_word (show x)).
Fixpoint cells (w : nat) (r : list f64) : string :=
  match r with
  | [] => ""
  | x :: r' => " " ++ pad_left w (show x) ++ cells w r'
  end.
Lemma matrix_row_cells w r : matrix_row show w r = cells w r ++ " │" ++ nl.
Proof. induction r as [|x r IH]; cbn [matrix_row cells]; [reflexivity|rewrite IH, !append_assoc; reflexivity]. Qed.
Lemma cells_app w a b : cells w (a ++ b)%list = cells w a ++ cells w b.
Proof. induction a as [|x a IH]; cbn [cells List.app]; [reflexivity|rewrite IH, !append_assoc; reflexivity]. Qed.
Lemma cells_length w r : (forall x, In x r -> (String.length (show x) <= w)%nat) ->
  String.length (cells w r) = ((w + 1) * length r)%nat.
Proof.
  induction r as [|x r IH]; intros H; cbn [cells length]; [cbn; lia|].
  rewrite !length_app, length_pad_left, short, IH; cbn [String.length]; [lia|..].
  - intros y Hy; apply H; right; exact Hy.
  - apply H; left; reflexivity.
Qed.
Lemma cells_free w r : free is_nl (cells w r) = true.
Proof.
  induction r as [|x r IH]; cbn [cells]; [reflexivity|].
  rewrite !free_app, free_pad_left, (word_free_nl _ (W x)), IH; reflexivity.
Qed.
Lemma longest_spec m x : In x (concat m) -> (String.length (show x) <= longest show m)%nat.
Proof.
  unfold longest; induction (concat m) as [|y l IH]; intros H; [destruct H|].
  cbn [map fold_right]; destruct H as [->|H]; [lia|specialize (IH H); lia].
Qed.
Lemma pieces_line l s : free is_nl l = true -> l <> "" -> pieces is_nl (l ++ nl ++ s) = l :: pieces is_nl s.
Proof.
  intros F H; unfold nl; cbn [append]; rewrite pieces_app by reflexivity.
  rewrite pieces_free by assumption; reflexivity.
Qed.
Lemma substring_front b : forall c, substring 0 (String.length b) (b ++ c) = b.
Proof. induction b as [|x b IH]; intros c; cbn; [destruct c; reflexivity|rewrite IH; reflexivity]. Qed.
Lemma substring_middle a : forall b c n, n = String.length b -> substring (String.length a) n (a ++ b ++ c) = b.
Proof.
  induction a as [|x a IH]; intros b c n ->; cbn [append String.length substring]; [apply substring_front|].
  apply IH; reflexivity.
Qed.
Lemma split_nth {A} (l : list A) d : forall j, (j < length l)%nat ->
  l = (firstn j l ++ nth j l d :: skipn (S j) l)%list.
Proof.
  induction l as [|a l IH]; intros j Hj; cbn [length] in Hj; [lia|].
  destruct j as [|j]; [reflexivity|].
  change (a :: l = a :: (firstn j l ++ nth j l d :: skipn (S j) l))%list.
  f_equal; apply IH; lia.
Qed.

Definition matrix_text (w : nat) (r : list f64) : string := "  │" ++ cells w r ++ " │".
Lemma rows_pieces w m s :
  pieces is_nl (fold_right (fun r rest => "  │" ++ matrix_row show w r ++ rest) "" m ++ s)
  = (map (matrix_text w) m ++ pieces is_nl s)%list.
Proof.
  induction m as [|r m IH]; [reflexivity|].
  cbn [fold_right map List.app]; rewrite <- IH, matrix_row_cells, !append_assoc.
  rewrite <- pieces_line.
  - unfold matrix_text; rewrite !append_assoc; reflexivity.
  - unfold matrix_text; rewrite !free_app, cells_free; reflexivity.
  - discriminate.
Qed.

Lemma matrix_aligned m n : m <> [] -> (forall r, In r m -> length r = n) ->
  exists w rows top bottom,
    pieces is_nl (display_matrix show m) = (top :: rows ++ [bottom])%list /\
    length rows = length m /\
    (forall l, In l (top :: bottom :: rows) -> String.length l = 9 + (w + 1) * n)%nat /\
    (forall i j, (i < length m)%nat -> (j < n)%nat ->
       exists k, substring (5 + (w + 1) * j) (w + 1) (nth i rows "")
                 = " " ++ times k " " ++ show (nth j (nth i m []) n0)).
Proof.
  intros Hm Hn; set (w := longest show m); set (inner := times ((w + 1) * n + 1) " ").
  assert (Hw : forall r, In r m -> forall x, In x r -> (String.length (show x) <= w)%nat).
  { intros r Hr x Hx; apply longest_spec, in_concat; exists r; split; assumption. }
  assert (Hh : length (hd [] m) = n) by (destruct m as [|r m']; [congruence|apply Hn; left; reflexivity]).
  exists w, (map (matrix_text w) m), ("  ┌" ++ inner ++ "┐"), ("  └" ++ inner ++ "┘").
  split; [|split; [|split]].
  - unfold display_matrix; fold w; rewrite Hh; fold inner.
    unfold nl at 1; cbn [append]; rewrite pieces_skip by reflexivity.
    change (pieces is_nl ("  ┌" ++ inner ++ "┐" ++ nl ++
      fold_right (fun r rest => "  │" ++ matrix_row show w r ++ rest) "" m ++
      "  └" ++ inner ++ "┘" ++ nl ++ nl) = ("  ┌" ++ inner ++ "┐") :: (map (matrix_text w) m ++ ["  └" ++ inner ++ "┘"]%string)%list).
    assert (A3 : forall a c d, a ++ inner ++ c ++ nl ++ d = (a ++ inner ++ c) ++ nl ++ d)
      by (intros; rewrite !append_assoc; reflexivity).
    assert (Fi : free is_nl inner = true) by apply free_times.
    rewrite (A3 "  ┌"), pieces_line by (try discriminate; rewrite !free_app, Fi; reflexivity).
    f_equal.
    rewrite rows_pieces; f_equal; rewrite (A3 "  └"), pieces_line
      by (try discriminate; rewrite !free_app, Fi; reflexivity).
    reflexivity.
  - apply map_length.
  - assert (Li : String.length inner = ((w + 1) * n + 1)%nat) by apply length_times.
    intros l [<-|[<-|H]]; [rewrite !length_app, Li; cbn [String.length]; lia..|].
    apply in_map_iff in H; destruct H as (r & <- & Hr); unfold matrix_text.
    rewrite !length_app, (cells_length _ _ (Hw r Hr)), (Hn r Hr); cbn [String.length]; lia.
  - intros i j Hi Hj; set (r := nth i m []).
    assert (Hr : In r m) by (apply nth_In, Hi).
    assert (Hjr : (j < length r)%nat) by (rewrite (Hn r Hr); exact Hj).
    exists (w - String.length (show (nth j r n0)))%nat.
    rewrite (nth_indep _ "" (matrix_text w [])) by (rewrite map_length; exact Hi).
    rewrite map_nth; fold r; unfold matrix_text.
    rewrite (split_nth r n0 j Hjr) at 1; rewrite cells_app; cbn [cells].
    assert (Lf : String.length ("  │" ++ cells w (firstn j r)) = (5 + (w + 1) * j)%nat).
    { rewrite length_app, cells_length, firstn_length_le by
        first [lia | intros x Hx; apply (Hw r Hr); rewrite <- (firstn_skipn j r); apply in_or_app; left; exact Hx].
      reflexivity. }
    rewrite <- Lf.
    transitivity (substring (String.length ("  │" ++ cells w (firstn j r))) (w + 1)
      (("  │" ++ cells w (firstn j r)) ++ (" " ++ pad_left w (show (nth j r n0)))
         ++ cells w (skipn (S j) r) ++ " │")).
    { f_equal; rewrite !append_assoc; reflexivity. }
    apply (substring_middle _ (" " ++ pad_left w (show (nth j r n0)))).
    rewrite length_app, length_pad_left, short; [cbn [String.length]; lia|].
    apply (Hw r Hr), nth_In, Hjr.
Qed.
End Matrices.

(** The lines of a matrix have the same length, and the entries of a column end
    at the same place. *)
Theorem C78_matrices m n : m <> [] -> (forall r, In r m -> length r = n) ->
  exists w rows top bottom,
    pieces is_nl (display_matrix display_f64 m) = (top :: rows ++ [bottom])%list /\
    length rows = length m /\
    (forall l, In l (top :: bottom :: rows) -> String.length l = 9 + (w + 1) * n)%nat /\
    (forall i j, (i < length m)%nat -> (j < n)%nat ->
       exists k, substring (5 + (w + 1) * j) (w + 1) (nth i rows "")
                 = " " ++ times k " " ++ display_f64 (nth j (nth i m []) n0)).
Proof. apply matrix_aligned, display_f64_word. Qed.

(** A table of two points, the second with more digits than the columns of the
    variables hold; and the table of the parameters of the log of the repository. *)
Definition huge : f64 := nofZ 12345678901234567890.
Example C78_case :
  columns_aligned "+-------+-----+
| Id    | 1   |
+-------+-----+
" /\ ~ columns_aligned "+-------+-----+
| Id     | 1   |
" /\ point_fits display_f64 [huge; nofZ (-5)] (mkResidualsValues [n0; n1] [n1; n1]) [n1; ninf]
  /\ ~ limits_fit display_f64 (mkIterativeParams huge n1 n0 n1)
  /\ match display_iteration display_f64 [huge; nofZ (-5)] (mkResidualsValues [n0; n1] [n1; n1]) [n1; ninf] with
     | Ret t => map (marks bar) (lines_of bar t)
     | Panic _ => []
     end = repeat [0; 8; 40; 105; 139]%nat 7.
Proof.
  split; [|split; [|split; [|split]]].
  - intros l l' H H'; destruct H as [<-|[<-|[<-|[]]]], H' as [<-|[<-|[<-|[]]]]; reflexivity.
  - intros H; discriminate (H _ _ (or_introl eq_refl) (or_intror (or_introl eq_refl))).
  - repeat split; try (intros a H; cbn [In rv_left rv_right] in H;
      repeat (destruct H as [<-|H]; [apply Nat.leb_le; vm_compute; reflexivity|]); destruct H); cbn; lia.
  - intros H; specialize (H huge (or_introl eq_refl)); apply Nat.leb_le in H; vm_compute in H; discriminate.
  - vm_compute; reflexivity.
Qed.
Example C78_case_matrix :
  match pieces is_nl (display_matrix display_f64 [[n1; nofZ (-5)]; [nofZ 250; n0]]) with
  | l => l = ["  ┌         ┐"; "  │   1  -5 │"; "  │ 250   0 │"; "  └         ┘"]
  end.
Proof. vm_compute; reflexivity. Qed.

Print Assumptions C78_points.
Print Assumptions C78_variables.
Print Assumptions C78_variables_fd.
Print Assumptions C78_residuals.
Print Assumptions C78_matrices.
Print Assumptions C78_parameters_refuted.
