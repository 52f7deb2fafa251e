(** C77: the text of the log can be read back. *)
From Coq Require Import Ascii.
From Coq Require Import Floats.SpecFloat.
From Flocq Require Import BinarySingleNaN.
From Verif Require Import Base Num Linalg Residuals Iteratives UserModel Jacobian Solver F64 Text Display
  PropsDisplay.
Open Scope string_scope.

(** ** A reader, independent of the writer *)

(** The non-empty pieces of a text between separators. *)
Fixpoint split_at (sep : ascii -> bool) (s : string) : string * list string :=
  match s with
  | EmptyString => (EmptyString, [])
  | String c s' =>
      let '(w, ws) := split_at sep s' in
      if sep c then (EmptyString, match w with EmptyString => ws | _ => w :: ws end)
      else (String c w, ws)
  end.
Definition pieces (sep : ascii -> bool) (s : string) : list string :=
  let '(w, ws) := split_at sep s in match w with EmptyString => ws | _ => w :: ws end.

Definition is_nl (c : ascii) : bool := Ascii.eqb c "010".
(** What separates the words of a line: spaces, the bars and the corners of the
    tables, and the equal sign between the two members of an equation. *)
Definition is_gap (c : ascii) : bool :=
  Ascii.eqb c " " || Ascii.eqb c "|" || Ascii.eqb c "=" || Ascii.eqb c "+".

Definition words (l : string) : list string := pieces is_gap l.
(** The rules of the tables are ignored, and the lines without words. *)
Definition line_words (l : string) : list (list string) :=
  match l with
  | String "+" _ => []
  | _ => match words l with [] => [] | w => [w] end
  end.
Definition content (s : string) : list (list string) := flat_map line_words (pieces is_nl s).

(** ** Facts on the reader *)

Fixpoint all (p : ascii -> bool) (s : string) : bool :=
  match s with EmptyString => true | String c s' => p c && all p s' end.
(** A text without separators. *)
Definition free (sep : ascii -> bool) (s : string) : bool := all (fun c => negb (sep c)) s.

Lemma all_app p a b : all p (a ++ b) = all p a && all p b.
Proof. induction a as [|c a IH]; cbn; [reflexivity|rewrite IH, andb_assoc; reflexivity]. Qed.
Lemma all_weaken p q s : (forall c, p c = true -> q c = true) -> all p s = true -> all q s = true.
Proof.
  intros H; induction s as [|c s IH]; cbn; [reflexivity|].
  intros E; apply andb_prop in E; destruct E as [Ec E]; rewrite (H _ Ec), (IH E); reflexivity.
Qed.

Lemma pieces_app sep a c s : sep c = true ->
  pieces sep (a ++ String c s) = (pieces sep a ++ pieces sep s)%list.
Proof.
  intros Hc; unfold pieces.
  assert (H : forall a, split_at sep (a ++ String c s)
    = (fst (split_at sep a), snd (split_at sep a) ++ pieces sep s)%list).
  { clear a; induction a as [|x a IH]; cbn [append split_at].
    - rewrite Hc; unfold pieces; destruct (split_at sep s) as [w ws]; cbn; destruct w; reflexivity.
    - rewrite IH; destruct (split_at sep a) as [w ws]; cbn [fst snd].
      destruct (sep x); [|reflexivity]; cbn [fst snd]; destruct w; reflexivity. }
  rewrite H; destruct (split_at sep a) as [w ws]; cbn [fst snd].
  unfold pieces; destruct (split_at sep s) as [w' ws']; destruct w; reflexivity.
Qed.
Lemma split_free sep a : free sep a = true -> split_at sep a = (a, []).
Proof.
  induction a as [|c a IH]; cbn; [reflexivity|].
  intros E; apply andb_prop in E; destruct E as [Ec E].
  fold (free sep a) in E; rewrite (IH E); apply negb_true_iff in Ec; rewrite Ec; reflexivity.
Qed.
Lemma pieces_free sep a : free sep a = true -> a <> "" -> pieces sep a = [a].
Proof. intros E N; unfold pieces; rewrite (split_free _ _ E); destruct a; [contradiction|reflexivity]. Qed.
Lemma pieces_skip sep c s : sep c = true -> pieces sep (String c s) = pieces sep s.
Proof. intros Hc; exact (pieces_app sep "" c s Hc). Qed.

Lemma content_line l s : free is_nl l = true -> content (l ++ nl ++ s) = (line_words l ++ content s)%list.
Proof.
  intros E; unfold content, nl; cbn [append].
  rewrite pieces_app by reflexivity; rewrite flat_map_app; f_equal.
  destruct l as [|c l]; [reflexivity|].
  rewrite (pieces_free _ _ E) by discriminate; cbn [flat_map]; rewrite app_nil_r; reflexivity.
Qed.
Lemma content_nl s : content (nl ++ s) = content s.
Proof. exact (content_line "" s eq_refl). Qed.

Lemma line_bar l : line_words (String "|" l) = match words l with [] => [] | w => [w] end.
Proof.
  cbn [line_words]; unfold words; rewrite pieces_skip by reflexivity; reflexivity.
Qed.

Lemma words_spaces n s : words (times n " " ++ s) = words s.
Proof.
  induction n as [|n IH]; [reflexivity|]; cbn [times]; rewrite append_assoc.
  unfold words in *; cbn [append]; rewrite pieces_skip by reflexivity; exact IH.
Qed.
Lemma words_gap a s : words (a ++ String " " s) = (words a ++ words s)%list.
Proof. apply pieces_app; reflexivity. Qed.
Lemma words_bar a s : words (a ++ String "|" s) = (words a ++ words s)%list.
Proof. apply pieces_app; reflexivity. Qed.
Lemma words_trailing n a : words (a ++ times n " ") = words a.
Proof.
  destruct n as [|n]; cbn [times]; [rewrite append_empty; reflexivity|].
  cbn [append]; rewrite words_gap.
  rewrite <- (append_empty (times n " ")), words_spaces; cbn; rewrite app_nil_r; reflexivity.
Qed.
Lemma words_pad n a s : words (pad n a ++ String "|" s) = (words a ++ words s)%list.
Proof. rewrite words_bar; unfold pad; rewrite words_trailing; reflexivity. Qed.
(** A cell of a table. *)
Lemma words_cell n a c s : is_gap c = true ->
  words ("| " ++ pad n a ++ String c s) = (words a ++ words (String c s))%list.
Proof.
  intros Hc; cbn [append]; unfold words; rewrite !pieces_skip by reflexivity.
  rewrite pieces_app by exact Hc; rewrite (pieces_skip _ c) by exact Hc; f_equal.
  unfold pad; exact (words_trailing _ a).
Qed.

(** A word: not empty and without separators. *)
Definition is_word (s : string) : Prop :=
  s <> "" /\ all (fun c => negb (is_gap c) && negb (is_nl c)) s = true.
Lemma word_free_gap s : is_word s -> free is_gap s = true.
Proof. intros [_ H]; revert H; apply all_weaken; intros c E; apply andb_prop in E; tauto. Qed.
Lemma word_free_nl s : is_word s -> free is_nl s = true.
Proof. intros [_ H]; revert H; apply all_weaken; intros c E; apply andb_prop in E; tauto. Qed.
Lemma words_word s : is_word s -> words s = [s].
Proof. intros H; apply pieces_free; [apply word_free_gap, H|apply H]. Qed.

Lemma free_times n : free is_nl (times n " ") = true.
Proof. induction n as [|n IH]; [reflexivity|exact IH]. Qed.
Lemma free_app sep a b : free sep (a ++ b) = free sep a && free sep b.
Proof. apply all_app. Qed.
Lemma free_pad n a : free is_nl (pad n a) = free is_nl a.
Proof. unfold pad; rewrite free_app, free_times, andb_true_r; reflexivity. Qed.
Lemma free_pad_left n a : free is_nl (pad_left n a) = free is_nl a.
Proof. unfold pad_left; rewrite free_app, free_times; reflexivity. Qed.

(** *** The numbers are words *)
Definition plain (c : ascii) : bool := negb (is_gap c) && negb (is_nl c).

Lemma show_N_plain n : all plain (show_N n) = true.
Proof.
  unfold show_N; generalize (N.to_uint n) as u.
  induction u as [|u IH|u IH|u IH|u IH|u IH|u IH|u IH|u IH|u IH|u IH];
    cbn [DecimalString.NilEmpty.string_of_uint all]; [reflexivity|..]; rewrite IH; reflexivity.
Qed.
Lemma show_N_nonempty n : show_N n <> "".
Proof. destruct (show_first n) as (c & s & d & -> & _); discriminate. Qed.
Lemma show_usize_word n : is_word (show_usize n).
Proof. split; [apply show_N_nonempty|apply show_N_plain]. Qed.
Lemma show_sign_plain b : all plain (show_sign b) = true.
Proof. destruct b; reflexivity. Qed.
Lemma app_nonempty_r a b : b <> "" -> a ++ b <> "".
Proof. intros N; destruct a; [exact N|discriminate]. Qed.
Lemma app_nonempty_l a b : a <> "" -> a ++ b <> "".
Proof. intros N; destruct a; [contradiction|discriminate]. Qed.

Lemma show_f64_word x : is_word (show_f64 x).
Proof.
  unfold show_f64; destruct x as [s|s| |s m e H].
  - destruct s; split; [discriminate|reflexivity|discriminate|reflexivity].
  - destruct s; split; [discriminate|reflexivity|discriminate|reflexivity].
  - split; [discriminate|reflexivity].
  - split.
    + apply app_nonempty_r; destruct e; try apply show_N_nonempty; apply app_nonempty_l, show_N_nonempty.
    + change (all plain (show_sign s ++
        match e with
        | Z0 => show_N (Npos m)
        | Zpos k => show_N (Npos (m * 2 ^ k))
        | Zneg k => show_N (Npos (m * 5 ^ k)) ++ "e-" ++ show_N (Npos k)
        end) = true).
      rewrite all_app, show_sign_plain; destruct e; try apply show_N_plain.
      rewrite all_app, show_N_plain; exact (show_N_plain _).
Qed.

Lemma substring_plain s : forall n m, all plain s = true -> all plain (substring n m s) = true.
Proof.
  induction s as [|c s IH]; intros n m H; [destruct n, m; reflexivity|].
  cbn in H; apply andb_prop in H; destruct H as [Hc H].
  destruct n as [|n]; [destruct m as [|m]; [reflexivity|]|]; cbn [substring all].
  - rewrite Hc, (IH 0%nat m H); reflexivity.
  - apply IH, H.
Qed.
Lemma times0_plain n : all plain (times n "0") = true.
Proof. induction n as [|n IH]; [reflexivity|exact IH]. Qed.
Lemma plain_decimal_word d q : is_word (plain_decimal d q).
Proof.
  assert (P := show_N_plain d); assert (N := show_N_nonempty d).
  unfold plain_decimal; destruct q as [|k|k].
  - split; [apply app_nonempty_l, N|].
    change (all plain (show_N d ++ times (Z.to_nat 0) "0") = true).
    rewrite all_app, P, times0_plain; reflexivity.
  - split; [apply app_nonempty_l, N|].
    change (all plain (show_N d ++ times (Z.to_nat (Z.pos k)) "0") = true).
    rewrite all_app, P, times0_plain; reflexivity.
  - split.
    + destruct (Nat.ltb _ _); [apply app_nonempty_r; discriminate|discriminate].
    + change (all plain (let k := Pos.to_nat k in
        let n := String.length (show_N d) in
        if Nat.ltb k n
        then substring 0 (n - k) (show_N d) ++ "." ++ substring (n - k) k (show_N d)
        else "0." ++ times (k - n) "0" ++ show_N d) = true).
      cbv zeta; destruct (Nat.ltb _ _).
      * rewrite all_app, substring_plain by exact P; exact (substring_plain _ _ _ P).
      * cbn [append all]; rewrite all_app, times0_plain; exact P.
Qed.
Lemma display_f64_word x : is_word (display_f64 x).
Proof.
  unfold display_f64; destruct x as [s|s| |s m e H]; try apply show_f64_word.
  destruct (find _ _) as [t|] eqn:E; [|apply show_f64_word].
  apply find_some in E; destruct E as [E _].
  apply in_map_iff in E; destruct E as (dq & <- & _).
  destruct (plain_decimal_word (fst dq) (snd dq)) as [N P].
  split; [apply app_nonempty_r, N|].
  change (all plain (show_sign s ++ plain_decimal (fst dq) (snd dq)) = true).
  rewrite all_app, show_sign_plain; exact P.
Qed.

Lemma Ret_inj {A} (a b : A) : Ret a = Ret b -> b = a.
Proof. congruence. Qed.

(** ** What is read in the texts of the log *)
Section Reading.
Context (show : f64 -> string) (W : forall x, is_word (show x)).

Lemma words_show x : words (show x) = [show x].
Proof. apply words_word, W. Qed.
Lemma words_usize n : words (show_usize n) = [show_usize n].
Proof. apply words_word, show_usize_word. Qed.
Lemma free_show x : free is_nl (show x) = true.
Proof. apply word_free_nl, W. Qed.
Lemma free_usize n : free is_nl (show_usize n) = true.
Proof. apply word_free_nl, show_usize_word. Qed.
Lemma free_norm m : free is_nl (display_norm m) = true.
Proof. destruct m; reflexivity. Qed.
Lemma free_method m : free is_nl (display_method m) = true.
Proof. destruct m as [|[|[]|[]]]; reflexivity. Qed.
Lemma free_bool b : free is_nl (show_bool b) = true.
Proof. destruct b; reflexivity. Qed.
Lemma free_perturbation m : free is_nl (display_perturbation m) = true.
Proof. destruct m; reflexivity. Qed.

Ltac free_all :=
  repeat (rewrite free_app || rewrite free_pad || rewrite free_pad_left || rewrite free_show
          || rewrite free_usize || rewrite free_norm || rewrite free_method || rewrite free_bool
          || rewrite free_perturbation);
  try reflexivity.

(** *** The parameters *)
Definition method_words (m : resolution_method) : list string :=
  match m with
  | NewtonRaphson => ["Newton-Raphson"]
  | QuasiNewton StationaryNewton =>
      ["Quasi"; "Newton:"; "Jacobian"; "matrix"; "behavior:"; "Frozen"; "Jacobian"; "matrix"]
  | QuasiNewton (JacobianUpdate u) | QuasiNewton (InverseJacobianUpdate u) =>
      ["Quasi"; "Newton:"; "Jacobian"; "matrix"; "behavior:"; "Jacobian"; "matrix"]
      ++ match u with
         | BroydenFirstMethod => ["approximatedBroyden"; "First"; "Method"]
         | BroydenSecondMethod => ["approximatedBroyden"; "Second"; "Method"]
         | GreenstadtFirstMethod => ["approximatedGreenstadt"; "First"; "Method"]
         | GreenstadtSecondMethod => ["approximatedGreenstadt"; "Second"; "Method"]
         end
  end%list.
Lemma words_method m : words (display_method m) = method_words m.
Proof. destruct m as [|[|[]|[]]]; reflexivity. Qed.
Lemma words_bool b : words (show_bool b) = [show_bool b].
Proof. destruct b; reflexivity. Qed.

Definition seen_parameters (p : solver_parameters f64) : list (list string) :=
  [["Solver"; "parameters"];
   ["Problem"; "size"; "Max"; "iteration"; "Tolerance"; "Damping"; "activated"; "Resolution"; "Method"];
   [show_usize (sp_problem_size p); show_usize (sp_max_iter p); show (sp_tolerance p);
    show_bool (sp_damping p)] ++ method_words (sp_resolution_method p)]%list.

Lemma content_rule l s : free is_nl l = true -> content (String "+" l ++ nl ++ s) = content s.
Proof. intros H; rewrite content_line; [reflexivity|exact H]. Qed.

(** A row of a table. *)
Fixpoint row (cells : list (nat * string)) (rest : string) : string :=
  match cells with
  | [] => rest
  | (n, t) :: cells' => "| " ++ pad n t ++ row cells' rest
  end.
Lemma row_app cells a b : row cells a ++ b = row cells (a ++ b).
Proof.
  induction cells as [|[n t] cells IH]; [reflexivity|].
  cbn [row]; rewrite !append_assoc, IH; reflexivity.
Qed.
Lemma row_free cells rest : forallb (fun c => free is_nl (snd c)) cells = true ->
  free is_nl rest = true -> free is_nl (row cells rest) = true.
Proof.
  intros H Hr; induction cells as [|[n t] cells IH]; [exact Hr|].
  cbn [forallb snd] in H; apply andb_prop in H; destruct H as [Ht H].
  cbn [row]; rewrite !free_app, free_pad, Ht, (IH H); reflexivity.
Qed.
Lemma row_gap cells g rest : is_gap g = true ->
  exists c r, is_gap c = true /\ row cells (String g rest) = String c r.
Proof.
  intros Hg; destruct cells as [|[n t] cells]; [exists g, rest; split; [exact Hg|reflexivity]|].
  exists "|"%char; eexists; split; reflexivity.
Qed.
Lemma words_row cells g rest : is_gap g = true -> words (row cells (String g rest))
  = (flat_map (fun c => words (snd c)) cells ++ words (String g rest))%list.
Proof.
  intros Hg; induction cells as [|[n t] cells IH]; [reflexivity|].
  cbn [row flat_map snd]; destruct (row_gap cells g rest Hg) as (c & r & Hc & E).
  rewrite E in *; rewrite words_cell by exact Hc; rewrite IH, app_assoc; reflexivity.
Qed.
Lemma content_row cells g close s w ws :
  is_gap g = true ->
  forallb (fun c => free is_nl (snd c)) cells = true ->
  free is_nl (String g close) = true -> words close = [] ->
  flat_map (fun c => words (snd c)) cells = w :: ws ->
  content (row cells (String g (close ++ nl ++ s)))
  = (flat_map (fun c => words (snd c)) cells :: content s)%list.
Proof.
  intros Hg Hf Hc Hw E.
  change (String g (close ++ nl ++ s)) with (String g close ++ nl ++ s).
  rewrite <- row_app, content_line by (apply row_free; [exact Hf|exact Hc]).
  assert (Q : words (row cells (String g close)) = flat_map (fun c => words (snd c)) cells).
  { rewrite words_row by exact Hg; unfold words at 2; rewrite pieces_skip by exact Hg.
    fold (words close); rewrite Hw, app_nil_r; reflexivity. }
  destruct cells as [|[n t] cells]; [discriminate|].
  cbn [row]; cbn [append].
  rewrite line_bar; unfold words at 1; rewrite pieces_skip by reflexivity.
  cbn [row] in Q; cbn [append] in Q; unfold words at 1 in Q; rewrite !pieces_skip in Q by reflexivity.
  rewrite Q, E; reflexivity.
Qed.
Ltac read_line := first [rewrite content_line by reflexivity | rewrite content_nl].

Lemma read_parameters p s : content (display_parameters show p ++ s) = (seen_parameters p ++ content s)%list.
Proof.
  unfold display_parameters, parameters_line; rewrite !append_assoc.
  do 6 read_line.
  match goal with |- context [content (?a ++ pad 15 ?b ++ ?c ++ pad 17 ?d ++ ?e ++ pad 15 ?f ++ ?g ++ pad 19 ?h ++ ?i ++ pad 20 ?j ++ ?k ++ nl ++ ?r)] =>
    change (a ++ pad 15 b ++ c ++ pad 17 d ++ e ++ pad 15 f ++ g ++ pad 19 h ++ i ++ pad 20 j ++ k ++ nl ++ r)
      with (row [(15%nat, b); (17%nat, d); (15%nat, f); (19%nat, h); (20%nat, j)] (String "|" ("" ++ nl ++ r))) end.
  erewrite content_row;
    [|reflexivity|cbn [forallb snd]; free_all|reflexivity|reflexivity
     |cbn [flat_map snd]; rewrite words_usize; reflexivity].
  do 2 read_line.
  unfold seen_parameters; cbn [flat_map snd].
  rewrite !words_usize, words_show, words_bool, words_method, app_nil_r; reflexivity.
Qed.

(** *** The limits of the variables *)
Definition seen_limits (p : iterative_params f64) : list string :=
  [show (max_step_abs p); show (max_step_rel p); show (min_value p); show (max_value p)].
Definition seen_limits_fd (p : iterative_params_fd f64) : list string :=
  (seen_limits (fd_params p) ++
   [match fd_method p with PMax => "Max" | PSum => "Sum" end; show (fd_dx_abs p); show (fd_dx_rel p)])%list.
Definition seen_title (fd : bool) : list string :=
  ["Iterative"; "max_step_abs"; "max_step_rel"; "min_value"; "max_value"]
  ++ (if fd then ["perturbation"; "dx_abs"; "dx_rel"] else []).
Fixpoint numbered (i : nat) (l : list (list string)) : list (list string) :=
  match l with
  | [] => []
  | r :: l' => (show_usize i :: r) :: numbered (S i) l'
  end.
Definition seen_iteratives {A} (fd : bool) (seen : A -> list string) (l : list A) : list (list string) :=
  ([["Iteratives"; "parameters"]; seen_title fd] ++ numbered 0 (map seen l))%list.

Lemma content_iteratives_line fd s : content (iteratives_line fd ++ s) = content s.
Proof.
  assert (E : iteratives_line fd = String "+" ("-----------+" ++ column ++ column ++ column ++ column ++
    (if fd then "-----------------+" ++ column ++ column else "")) ++ nl) by (destruct fd; reflexivity).
  rewrite E, append_assoc; apply content_rule; destruct fd; reflexivity.
Qed.
Lemma words_limit n a s : words (" " ++ pad n a ++ "|" ++ s) = (words a ++ words s)%list.
Proof.
  cbn [append]; unfold words at 1; rewrite pieces_skip by reflexivity.
  exact (words_pad n a s).
Qed.
Lemma words_limit_end n a : words (" " ++ pad n a ++ "|") = words a.
Proof.
  transitivity (words (" " ++ pad n a ++ "|" ++ "")); [reflexivity|].
  rewrite words_limit; cbn; apply app_nil_r.
Qed.
Lemma limits_free p : free is_nl (display_limits show p) = true.
Proof. unfold display_limits; free_all. Qed.
Lemma limits_fd_free p : free is_nl (display_limits_fd show p) = true.
Proof. unfold display_limits_fd, display_limits; free_all. Qed.
Lemma limits_words p : words (display_limits show p) = seen_limits p.
Proof.
  unfold display_limits, seen_limits; rewrite !words_limit, words_limit_end, !words_show; reflexivity.
Qed.
Lemma limits_fd_words p : words (display_limits_fd show p) = seen_limits_fd p.
Proof.
  unfold display_limits_fd, display_limits, seen_limits_fd, seen_limits; rewrite !append_assoc.
  rewrite !words_limit, words_limit_end, !words_show.
  assert (E : words (display_perturbation (fd_method p))
              = [match fd_method p with PMax => "Max" | PSum => "Sum" end])
    by (destruct (fd_method p); reflexivity).
  rewrite E; reflexivity.
Qed.
Lemma content_numbered i t s : free is_nl t = true ->
  content ("| " ++ pad 10 (show_usize i) ++ "|" ++ t ++ nl ++ s) = ((show_usize i :: words t) :: content s)%list.
Proof.
  intros Ht.
  replace ("| " ++ pad 10 (show_usize i) ++ "|" ++ t ++ nl ++ s)
    with (("| " ++ pad 10 (show_usize i) ++ "|" ++ t) ++ nl ++ s) by (rewrite !append_assoc; reflexivity).
  rewrite content_line by (rewrite !free_app, free_pad, free_usize, Ht; reflexivity).
  cbn [append]; rewrite line_bar; unfold words at 1; rewrite pieces_skip by reflexivity.
  fold (words (pad 10 (show_usize i) ++ String "|" t)); rewrite words_pad, words_usize; reflexivity.
Qed.
Lemma read_rows fd : forall texts i s, forallb (free is_nl) texts = true ->
  content (iteratives_rows fd i texts ++ s) = (numbered i (map words texts) ++ content s)%list.
Proof.
  induction texts as [|t texts IH]; intros i s H; [reflexivity|].
  cbn [forallb] in H; apply andb_prop in H; destruct H as [Ht H].
  cbn [iteratives_rows map numbered]; rewrite !append_assoc.
  rewrite content_numbered by exact Ht; rewrite content_iteratives_line, (IH _ _ H); reflexivity.
Qed.
Lemma read_iteratives {A} fd (disp : A -> string) (seen : A -> list string) l t s :
  (forall a, free is_nl (disp a) = true) -> (forall a, words (disp a) = seen a) ->
  display_iteratives (fun _ => fd) disp l = Ret t ->
  content (t ++ s) = (seen_iteratives fd seen l ++ content s)%list.
Proof.
  intros Hf Hw; unfold display_iteratives.
  destruct (index l 0) as [first|]; [|discriminate]; cbn [bind]; intros E0; apply Ret_inj in E0; subst t.
  rewrite !append_assoc; do 3 read_line.
  rewrite content_iteratives_line.
  assert (T : forall r, content (iteratives_title fd ++ r) = ([seen_title fd] ++ content r)%list).
  { intros r.
    assert (E : iteratives_title fd = String "|" (" Iterative " ++ "| " ++ pad 13 "max_step_abs" ++ "| " ++
       pad 13 "max_step_rel" ++ "| " ++ pad 13 "min_value" ++ "| " ++ pad 13 "max_value" ++
       (if fd
        then "| " ++ pad 16 "perturbation" ++ "| " ++ pad 13 "dx_abs" ++ "| " ++ pad 13 "dx_rel" ++ "|"
        else "|")) ++ nl) by (destruct fd; reflexivity).
    rewrite E, append_assoc, content_line by (destruct fd; reflexivity).
    destruct fd; reflexivity. }
  rewrite T, content_iteratives_line, read_rows.
  2: { apply forallb_forall; intros x Hx; apply in_map_iff in Hx; destruct Hx as (a & <- & _); apply Hf. }
  rewrite content_nl; unfold seen_iteratives.
  rewrite map_map; erewrite (map_ext _ _ Hw); reflexivity.
Qed.

(** *** The normalizations *)
Definition norm_word (m : norm_method) : string :=
  match m with Abs => "Absolute" | Rel => "Relative" | Adapt => "Adaptative" end.
Definition norm_words (m : norm_method) : list string := [norm_word m; "Normalization"].
Lemma words_norm m : words (display_norm m) = norm_words m.
Proof. destruct m; reflexivity. Qed.
Definition seen_residuals (c : residuals_config) : list (list string) :=
  ([["Residuals"; "configuration"];
    ["Residual"; "number"; "Stopping"; "criteria"; "Update"; "method"]] ++
   numbered 0 (map (fun su => norm_words (fst su) ++ norm_words (snd su))
                   (combine (stopping_criterias c) (update_methods c))))%list.

Lemma read_residuals_rows : forall stopping update i t s, residuals_rows i stopping update = Ret t ->
  content (t ++ s) = (numbered i (map (fun su => norm_words (fst su) ++ norm_words (snd su))
                                      (combine stopping update)) ++ content s)%list.
Proof.
  induction stopping as [|a stopping IH]; intros update i t s; cbn [residuals_rows].
  - intros [= <-]; reflexivity.
  - destruct update as [|u update]; [discriminate|].
    destruct (residuals_rows (S i) stopping update) as [rest|] eqn:E; [|discriminate].
    cbn [bind]; intros E0; apply Ret_inj in E0; subst t.
    rewrite !append_assoc; cbn [combine map numbered fst snd].
    change (content (row [(18%nat, show_usize i); (25%nat, display_norm a); (25%nat, display_norm u)]
                         (String "|" ("" ++ nl ++ rest ++ s)))
            = ((show_usize i :: norm_words a ++ norm_words u) ::
               numbered (S i) (map (fun su => (norm_words (fst su) ++ norm_words (snd su))%list)
                                   (combine stopping update)) ++ content s)%list).
    erewrite content_row;
      [|reflexivity|cbn [forallb snd]; free_all|reflexivity|reflexivity
       |cbn [flat_map snd]; rewrite words_usize; reflexivity].
    cbn [flat_map snd]; rewrite words_usize, !words_norm, app_nil_r, (IH _ _ _ _ E); reflexivity.
Qed.
Lemma read_residuals c t s : display_residuals_config c = Ret t ->
  content (t ++ s) = (seen_residuals c ++ content s)%list.
Proof.
  unfold display_residuals_config, residuals_line, seen_residuals.
  destruct (residuals_rows 0 _ _) as [rows|] eqn:E; [|discriminate]; cbn [bind]; intros E0; apply Ret_inj in E0; subst t.
  rewrite !append_assoc; do 4 read_line.
  match goal with |- context [content (?a ++ pad 18 ?b ++ ?c ++ pad 25 ?d ++ ?e ++ pad 25 ?f ++ ?k ++ nl ++ ?r)] =>
    change (a ++ pad 18 b ++ c ++ pad 25 d ++ e ++ pad 25 f ++ k ++ nl ++ r)
      with (row [(18%nat, b); (25%nat, d); (25%nat, f)] (String "|" ("" ++ nl ++ r))) end.
  erewrite content_row; [|reflexivity..].
  read_line; rewrite (read_residuals_rows _ _ _ _ _ E).
  do 2 read_line; reflexivity.
Qed.

(** *** The matrices *)
Definition seen_matrix (m : mat f64) : list (list string) :=
  (["┌"; "┐"] :: map (fun r => "│" :: map show r ++ ["│"]) m ++ [["└"; "┘"]])%list.
Fixpoint row_body (width : nat) (r : list f64) : string :=
  match r with
  | [] => " │"
  | x :: r' => " " ++ pad_left width (show x) ++ row_body width r'
  end.
Lemma matrix_row_body width r s : matrix_row show width r ++ s = row_body width r ++ nl ++ s.
Proof.
  induction r as [|x r IH]; cbn [matrix_row row_body]; rewrite !append_assoc; [reflexivity|].
  rewrite IH; reflexivity.
Qed.
Lemma row_body_space width r : exists t, row_body width r = String " " t.
Proof. destruct r; eexists; reflexivity. Qed.
Lemma row_body_free width r : free is_nl (row_body width r) = true.
Proof.
  induction r as [|x r IH]; [reflexivity|].
  cbn [row_body]; rewrite !free_app, free_pad_left, free_show, IH; reflexivity.
Qed.
Lemma row_body_words width r : words (row_body width r) = (map show r ++ ["│"])%list.
Proof.
  induction r as [|x r IH]; [reflexivity|].
  cbn [row_body map]; cbn [append]; unfold words at 1; rewrite pieces_skip by reflexivity.
  unfold pad_left; rewrite append_assoc; fold (words (times (width - String.length (show x)) " " ++ show x ++ row_body width r)).
  rewrite words_spaces.
  destruct (row_body_space width r) as [t E]; rewrite E, words_gap, words_show.
  rewrite E in IH; unfold words at 1 in IH; rewrite pieces_skip in IH by reflexivity.
  unfold words; rewrite IH; reflexivity.
Qed.
Lemma line_plain l : match l with String "+" _ => False | _ => True end ->
  line_words l = match words l with [] => [] | w => [w] end.
Proof.
  destruct l as [|c l]; [reflexivity|]; intros H; cbn [line_words].
  destruct c as [[] [] [] [] [] [] [] []]; try reflexivity; contradiction.
Qed.
Lemma content_matrix_row width r s :
  content ("  │" ++ matrix_row show width r ++ s)
  = (("│" :: map show r ++ ["│"]) :: content s)%list.
Proof.
  rewrite matrix_row_body, <- append_assoc.
  rewrite content_line by (rewrite free_app, row_body_free; reflexivity).
  rewrite line_plain by exact I.
  destruct (row_body_space width r) as [t E].
  assert (Q : words ("  │" ++ row_body width r) = ("│" :: words (row_body width r))%list).
  { rewrite E, words_gap; unfold words at 3; rewrite pieces_skip by reflexivity; reflexivity. }
  rewrite Q, row_body_words; reflexivity.
Qed.
Lemma content_border open close k s :
  words open = [open] -> words close = [close] -> free is_nl open = true -> free is_nl close = true ->
  content (("  " ++ open) ++ times (k + 1) " " ++ close ++ nl ++ s) = ([open; close] :: content s)%list.
Proof.
  intros Wo Wc Fo Fc.
  replace (("  " ++ open) ++ times (k + 1) " " ++ close ++ nl ++ s)
    with ((("  " ++ open) ++ times (k + 1) " " ++ close) ++ nl ++ s) by (rewrite !append_assoc; reflexivity).
  rewrite content_line by (rewrite !free_app, free_times, Fo, Fc; reflexivity).
  rewrite line_plain by exact I.
  assert (Q : words (("  " ++ open) ++ times (k + 1) " " ++ close) = [open; close]).
  { rewrite Nat.add_1_r; cbn [times]; rewrite !append_assoc.
    change ("  " ++ open ++ " " ++ times k " " ++ close)
      with (String " " (String " " (open ++ String " " (times k " " ++ close)))).
    unfold words; rewrite !pieces_skip by reflexivity; fold (words (open ++ String " " (times k " " ++ close))).
    rewrite words_gap, words_spaces, Wc, Wo; reflexivity. }
  rewrite Q; reflexivity.
Qed.
Lemma read_matrix_rows width k s : forall m,
  content (fold_right (fun r rest => "  │" ++ matrix_row show width r ++ rest) "" m ++
           "  └" ++ times (k + 1) " " ++ "┘" ++ nl ++ nl ++ s)
  = (map (fun r => "│" :: map show r ++ ["│"]) m ++ ["└"; "┘"] :: content s)%list.
Proof.
  induction m as [|r m IH]; cbn [fold_right map List.app].
  - etransitivity; [apply (content_border "└" "┘"); reflexivity|].
    rewrite content_nl; reflexivity.
  - rewrite !append_assoc, content_matrix_row; f_equal; exact IH.
Qed.
Lemma read_matrix m s : content (display_matrix show m ++ s) = (seen_matrix m ++ content s)%list.
Proof.
  unfold display_matrix; cbv zeta; rewrite !append_assoc, content_nl.
  etransitivity; [apply (content_border "┌" "┐"); reflexivity|].
  rewrite read_matrix_rows; unfold seen_matrix; cbn [List.app]; rewrite <- app_assoc; reflexivity.
Qed.

Definition seen_jacobian (j : jacobian_matrix f64) : list (list string) :=
  (["Jacobian"; "matrix"] ::
   match jm_matrix j with
   | Some m => ["Jacobian"; "up"; "to"; "date"; "with"; "its"; "inverse"] :: ["Jacobian:"] :: seen_matrix m
   | None => [["Jacobian"; "not"; "up"; "to"; "date"; "with"; "its"; "inverse."];
              ["The"; "update"; "of"; "the"; "inverse"; "is"; "more"; "recent"]]
   end ++
   ["Inverse"; "of"; "the"; "jacobian"; "Matrix:"] ::
   match jm_inverse j with
   | Some m => seen_matrix m
   | None => [["Inverse"; "jacobian"; "matrix"; "not"; "yet"; "computed"]]
   end)%list.
Lemma read_jacobian j s : content (display_jacobian show j ++ s) = (seen_jacobian j ++ content s)%list.
Proof.
  unfold display_jacobian, seen_jacobian; rewrite !append_assoc.
  do 3 read_line; cbn [List.app]; f_equal.
  assert (T : forall s, content ("Inverse of the jacobian Matrix:" ++ nl ++
      match jm_inverse j with
      | Some m => display_matrix show m
      | None => "Inverse jacobian matrix not yet computed"
      end ++ nl ++ s)
    = (["Inverse"; "of"; "the"; "jacobian"; "Matrix:"] ::
       match jm_inverse j with
       | Some m => seen_matrix m
       | None => [["Inverse"; "jacobian"; "matrix"; "not"; "yet"; "computed"]]
       end ++ content s)%list).
  { intros r; read_line; destruct (jm_inverse j) as [m|].
    - rewrite read_matrix, content_nl; reflexivity.
    - read_line; reflexivity. }
  destruct (jm_matrix j) as [m|]; rewrite !append_assoc.
  - do 3 read_line; rewrite read_matrix, T; rewrite <- app_assoc; reflexivity.
  - do 2 read_line; rewrite T; reflexivity.
Qed.

(** *** The iterations *)
Definition seen_point (x : vec f64) (v : residuals_values f64) (errors : vec f64) : list (list string) :=
  (["Max"; "error:"; show (amax errors)] ::
   ["Id"; "Iteratives"; "Left"; "Right"; "Stopping"; "criteria"] ::
   map (fun i => [show_usize i; show (nth i x nnan); show (nth i (rv_left v) nnan);
                  show (nth i (rv_right v) nnan); show (nth i errors nnan)])
       (seq 0 (Nat.min (length x) (length errors))))%list.

Lemma words_equal a b s : words (a ++ " = " ++ b ++ s) = (words a ++ words (b ++ s))%list.
Proof.
  cbn [append]; rewrite words_gap; unfold words at 2; rewrite !pieces_skip by reflexivity; reflexivity.
Qed.
Lemma content_iteration_line s : content (iteration_line ++ s) = content s.
Proof. unfold iteration_line; rewrite append_assoc; read_line; reflexivity. Qed.
Lemma read_iteration_rows : forall x errors left right i t s,
  iteration_rows show i x left right errors = Ret t ->
  content (t ++ s) =
  (map (fun k => [show_usize (i + k); show (nth k x nnan); show (nth k left nnan);
                  show (nth k right nnan); show (nth k errors nnan)])
       (seq 0 (Nat.min (length x) (length errors))) ++ content s)%list.
Proof.
  induction x as [|a x IH]; intros errors left right i t s; cbn [iteration_rows].
  { intros E; apply Ret_inj in E; subst t; reflexivity. }
  destruct errors as [|e errors].
  { intros E; apply Ret_inj in E; subst t; reflexivity. }
  destruct left as [|l left]; [discriminate|]; destruct right as [|r right]; [discriminate|].
  destruct (iteration_rows show (S i) x left right errors) as [rest|] eqn:E; [|discriminate].
  cbn [bind]; intros E0; apply Ret_inj in E0; subst t.
  rewrite !append_assoc.
  change (content (row [(6%nat, show_usize i); (30%nat, show a); (30%nat, values_str_eq show l r);
                        (30%nat, show e)] (String " " (" |" ++ nl ++ iteration_line ++ rest ++ s)))
    = (map (fun k => [show_usize (i + k); show (nth k (a :: x) nnan); show (nth k (l :: left) nnan);
                  show (nth k (r :: right) nnan); show (nth k (e :: errors) nnan)])
       (seq 0 (Nat.min (length (a :: x)) (length (e :: errors)))) ++ content s)%list).
  assert (V : words (values_str_eq show l r) = [show l; show r]).
  { unfold values_str_eq; rewrite <- (append_empty (pad_left 30 (show r))), words_equal.
    unfold pad; rewrite words_trailing, words_show.
    rewrite append_empty; unfold pad_left; rewrite words_spaces, words_show; reflexivity. }
  assert (Fv : free is_nl (values_str_eq show l r) = true) by (unfold values_str_eq; free_all).
  erewrite content_row;
    [|reflexivity|cbn [forallb snd]; rewrite Fv; free_all|reflexivity|reflexivity
     |cbn [flat_map snd]; rewrite words_usize; reflexivity].
  cbn [flat_map snd]; rewrite words_usize, !words_show, V, content_iteration_line, (IH _ _ _ _ _ _ E).
  cbn [length Nat.min seq map List.app]; rewrite <- seq_shift, map_map, Nat.add_0_r; cbn [nth].
  f_equal; f_equal; apply map_ext; intros k; rewrite Nat.add_succ_r; reflexivity.
Qed.
Lemma read_iteration x v errors t s : display_iteration show x v errors = Ret t ->
  content (t ++ s) = (seen_point x v errors ++ content s)%list.
Proof.
  unfold display_iteration.
  destruct (iteration_rows show 0 x (rv_left v) (rv_right v) errors) as [rows|] eqn:E; [|discriminate].
  cbn [bind]; intros E0; apply Ret_inj in E0; subst t; rewrite !append_assoc.
  rewrite <- append_assoc, content_line by (rewrite free_app, free_show; reflexivity).
  rewrite content_nl, content_iteration_line.
  unfold iteration_title; rewrite append_assoc; read_line; rewrite content_iteration_line.
  rewrite (read_iteration_rows _ _ _ _ _ _ _ E), content_nl.
  unfold seen_point; cbn [List.app]; f_equal.
  rewrite (line_plain (_ ++ show _)) by exact I.
  change ("Max error: " ++ show (amax errors)) with ("Max error:" ++ String " " (show (amax errors))).
  rewrite words_gap, words_show; reflexivity.
Qed.

(** *** The log *)
Definition seen_entry (version : string) (iteratives : list (list string)) (e : log_entry f64)
  : list (list string) :=
  match e with
  | LHeader => [["Runner"; "informations"]; ["newton_rootfinder"; "version:"; version]]
  | LParameters p _ c => seen_parameters p ++ iteratives ++ seen_residuals c
  | LIteration k x v errors => ["Iteration:"; show_usize k] :: seen_point x v errors
  | LDamping x v errors => ["Damping"; "activated"; "!"] :: seen_point x v errors
  | LRecompute => [["Iteration"; "refused,"; "the"; "jacobian"; "will"; "be"; "recomputed"; "at"; "the";
                    "next"; "iteration"]]
  | LJacobian j => seen_jacobian j
  end%list.

Lemma read_entry version its_text its e t s : is_word version ->
  (forall s, content (its_text ++ s) = (its ++ content s)%list) ->
  display_entry show version its_text e = Ret t ->
  content (t ++ s) = (seen_entry version its e ++ content s)%list.
Proof.
  intros Hv Hits; destruct e as [|p is c|k x v errors|x v errors| |j]; cbn [display_entry seen_entry].
  - intros E; apply Ret_inj in E; subst t; rewrite !append_assoc; do 3 read_line.
    rewrite <- append_assoc, content_line by (rewrite free_app, (word_free_nl _ Hv); reflexivity).
    rewrite content_nl, (line_plain (_ ++ version)) by exact I.
    change ("newton_rootfinder version: " ++ version)
      with ("newton_rootfinder version:" ++ String " " version).
    rewrite words_gap, (words_word _ Hv); reflexivity.
  - destruct (display_residuals_config c) as [residuals|] eqn:E; [|discriminate].
    cbn [bind]; intros E0; apply Ret_inj in E0; subst t; rewrite !append_assoc.
    rewrite read_parameters, Hits, (read_residuals _ _ _ E), !app_assoc; reflexivity.
  - destruct (display_iteration show x v errors) as [t0|] eqn:E; [|discriminate].
    cbn [bind]; intros E0; apply Ret_inj in E0; subst t; unfold iteration_separation; rewrite !append_assoc.
    do 2 read_line.
    rewrite <- append_assoc, content_line by (rewrite free_app, free_usize; reflexivity).
    rewrite content_nl, (read_iteration _ _ _ _ _ E), (line_plain (_ ++ show_usize k)) by exact I.
    change ("Iteration: " ++ show_usize k) with ("Iteration:" ++ String " " (show_usize k)).
    rewrite words_gap, words_usize; reflexivity.
  - destruct (display_iteration show x v errors) as [t0|] eqn:E; [|discriminate].
    cbn [bind]; intros E0; apply Ret_inj in E0; subst t; rewrite !append_assoc.
    do 2 read_line; rewrite (read_iteration _ _ _ _ _ E); reflexivity.
  - intros E; apply Ret_inj in E; subst t; rewrite !append_assoc; do 2 read_line; reflexivity.
  - intros E; apply Ret_inj in E; subst t; apply read_jacobian.
Qed.
Lemma read_log version its_text its : is_word version ->
  (forall s, content (its_text ++ s) = (its ++ content s)%list) -> forall l t,
  display_log show version its_text l = Ret t ->
  content t = flat_map (seen_entry version its) l.
Proof.
  intros Hv Hits; induction l as [|e l IH]; intros t; cbn [display_log flat_map].
  - intros E; apply Ret_inj in E; subst t; reflexivity.
  - destruct (display_entry show version its_text e) as [t0|] eqn:E; [|discriminate]; cbn [bind].
    destruct (display_log show version its_text l) as [rest|]; [|discriminate]; cbn [bind].
    intros E0; apply Ret_inj in E0; subst t.
    rewrite (read_entry _ _ its _ _ _ Hv Hits E), (IH _ eq_refl); reflexivity.
Qed.

(** *** Different logs have different texts *)
Context (inj : forall x y, show x = show y -> x = y).

Lemma show_N_inj n n' : show_N n = show_N n' -> n = n'.
Proof.
  intros E.
  destruct (scan_show n "" 0 eq_refl eq_refl) as [k H]; destruct (scan_show n' "" 0 eq_refl eq_refl) as [k' H'].
  rewrite E, H' in H; congruence.
Qed.
Lemma show_usize_inj n n' : show_usize n = show_usize n' -> n = n'.
Proof. intros E; apply show_N_inj in E; lia. Qed.
Lemma map_inj {A B} (f : A -> B) : (forall x y, f x = f y -> x = y) ->
  forall l l', map f l = map f l' -> l = l'.
Proof.
  intros Hf; induction l as [|x l IH]; intros [|x' l']; cbn [map]; try discriminate; [reflexivity|].
  intros E; injection E as E1 E2; rewrite (Hf _ _ E1), (IH _ E2); reflexivity.
Qed.
(** Two texts that begin with lines of one kind, then continue with another kind. *)
Lemma same_block {A} (P : A -> bool) : forall l l' r r' : list A,
  forallb P l = true -> forallb P l' = true ->
  match r with x :: _ => P x = false | [] => True end ->
  match r' with x :: _ => P x = false | [] => True end ->
  (l ++ r = l' ++ r')%list -> l = l' /\ r = r'.
Proof.
  induction l as [|x l IH]; intros [|x' l'] r r' H H' Hr Hr'; cbn [List.app forallb] in *.
  - intros ->; split; reflexivity.
  - intros ->; apply andb_prop in H'; destruct H'; congruence.
  - intros <-; apply andb_prop in H; destruct H; congruence.
  - intros E; injection E as -> E; apply andb_prop in H, H'.
    destruct (IH _ _ _ (proj2 H) (proj2 H') Hr Hr' E) as [-> ->]; split; reflexivity.
Qed.
Definition five (w : list string) : bool := Nat.eqb (length w) 5.
Definition barred (w : list string) : bool := match w with x :: _ => String.eqb x "│" | [] => false end.

Lemma matrix_determined m m' r r' : (seen_matrix m ++ r = seen_matrix m' ++ r')%list -> m = m' /\ r = r'.
Proof.
  unfold seen_matrix; cbn [List.app]; intros E; injection E as E; rewrite <- !app_assoc in E.
  apply (same_block barred) in E.
  - destruct E as [E Er]; split; [|cbn [List.app] in Er; congruence].
    revert E; apply map_inj; intros x y Exy; injection Exy as Exy.
    apply app_inj_tail in Exy; revert Exy; intros [Exy _]; exact (map_inj show inj _ _ Exy).
  - apply forallb_forall; intros w Hw; apply in_map_iff in Hw; destruct Hw as (x & <- & _); reflexivity.
  - apply forallb_forall; intros w Hw; apply in_map_iff in Hw; destruct Hw as (x & <- & _); reflexivity.
  - reflexivity.
  - reflexivity.
Qed.

Definition well_formed (e : log_entry f64) : Prop :=
  match e with
  | LIteration _ x v errors | LDamping x v errors =>
      length (rv_left v) = length x /\ length (rv_right v) = length x /\ length errors = length x
  | LParameters _ _ c => length (stopping_criterias c) = length (update_methods c)
  | _ => True
  end.
(** What the text tells: everything but the flags of the jacobian and whether the
    jacobian or its inverse is updated. *)
Definition looks_like (e e' : log_entry f64) : Prop :=
  match e, e' with
  | LHeader, LHeader | LRecompute, LRecompute => True
  | LParameters p _ c, LParameters p' _ c' =>
      sp_problem_size p = sp_problem_size p' /\ sp_tolerance p = sp_tolerance p' /\
      sp_max_iter p = sp_max_iter p' /\ sp_damping p = sp_damping p' /\
      (sp_resolution_method p = sp_resolution_method p' \/
       sp_resolution_method p = swapped (sp_resolution_method p')) /\ c = c'
  | LIteration k x v errors, LIteration k' x' v' errors' =>
      k = k' /\ x = x' /\ v = v' /\ errors = errors'
  | LDamping x v errors, LDamping x' v' errors' => x = x' /\ v = v' /\ errors = errors'
  | LJacobian j, LJacobian j' => jm_matrix j = jm_matrix j' /\ jm_inverse j = jm_inverse j'
  | _, _ => False
  end.

Definition next_entry (r : list (list string)) : Prop :=
  match r with w :: _ => five w = false | [] => True end.
Lemma next_entries version its l : next_entry (flat_map (seen_entry version its) l).
Proof. destruct l as [|[] l]; reflexivity || exact I. Qed.

Lemma point_determined x v errors x' v' errors' r r' :
  well_formed (LDamping x v errors) -> well_formed (LDamping x' v' errors') ->
  next_entry r -> next_entry r' ->
  (seen_point x v errors ++ r = seen_point x' v' errors' ++ r')%list ->
  x = x' /\ v = v' /\ errors = errors' /\ r = r'.
Proof.
  intros (Hl & Hr & He) (Hl' & Hr' & He') N N'; unfold seen_point; cbn [List.app].
  intros E; injection E as _ E; apply (same_block five) in E.
  2, 3: apply forallb_forall; intros w Hw; apply in_map_iff in Hw; destruct Hw as (k & <- & _); reflexivity.
  2, 3: assumption.
  destruct E as [E Er].
  rewrite He, He', !Nat.min_id in E.
  assert (L : length x = length x').
  { apply (f_equal (@length _)) in E; rewrite !map_length, !seq_length in E; exact E. }
  rewrite <- L in *.
  assert (Q : forall k, k < length x ->
    nth k x nnan = nth k x' nnan /\ nth k (rv_left v) nnan = nth k (rv_left v') nnan /\
    nth k (rv_right v) nnan = nth k (rv_right v') nnan /\ nth k errors nnan = nth k errors' nnan).
  { intros k Hk; assert (P := ext_in_map E); specialize (P k ltac:(apply in_seq; lia)); cbv beta in P.
    injection P; intros E1 E2 E3 E4; repeat split; apply inj; assumption. }
  destruct v as [left right], v' as [left' right']; cbn [rv_left rv_right] in *.
  repeat split; [| | |exact Er].
  - apply nth_ext with nnan nnan; [exact L|intros k Hk; apply (Q k Hk)].
  - f_equal; apply nth_ext with nnan nnan; [congruence|intros k Hk; apply Q; congruence
      |congruence|intros k Hk; apply Q; congruence].
  - apply nth_ext with nnan nnan; [congruence|intros k Hk; apply Q; congruence].
Qed.
Lemma numbered_inj : forall l l' i, numbered i l = numbered i l' -> l = l'.
Proof.
  induction l as [|x l IH]; intros [|x' l'] i; cbn [numbered]; try discriminate; [reflexivity|].
  intros E; injection E as -> E; rewrite (IH _ _ E); reflexivity.
Qed.
Lemma numbered_five f : forall (l : list (norm_method * norm_method)) i, (forall su, length (f su) = 4) ->
  forallb five (numbered i (map f l)) = true.
Proof.
  induction l as [|x l IH]; intros i H; cbn [map numbered forallb]; [reflexivity|].
  rewrite (IH _ H), andb_true_r; unfold five; cbn [length]; rewrite (H x); reflexivity.
Qed.
Lemma combine_determined : forall (a b a' b' : list norm_method),
  length a = length b -> length a' = length b' -> combine a b = combine a' b' -> a = a' /\ b = b'.
Proof.
  induction a as [|x a IH]; intros [|y b] [|x' a'] [|y' b']; cbn; try discriminate; [split; reflexivity|].
  intros [= L] [= L'] [= -> -> E]; destruct (IH _ _ _ L L' E) as [-> ->]; split; reflexivity.
Qed.
Lemma residuals_determined c c' r r' :
  length (stopping_criterias c) = length (update_methods c) ->
  length (stopping_criterias c') = length (update_methods c') ->
  next_entry r -> next_entry r' ->
  (seen_residuals c ++ r = seen_residuals c' ++ r')%list -> c = c' /\ r = r'.
Proof.
  intros L L' N N'; unfold seen_residuals; cbn [List.app]; intros E; injection E as E.
  apply (same_block five) in E; [|apply numbered_five; reflexivity|apply numbered_five; reflexivity|exact N|exact N'].
  destruct E as [E ->]; split; [|reflexivity].
  apply numbered_inj, map_inj in E.
  - destruct c, c'; cbn in *; destruct (combine_determined _ _ _ _ L L' E) as [-> ->]; reflexivity.
  - intros [a b] [a' b']; cbn; intros [= Ea Eb]; destruct a, a'; try discriminate; destruct b, b'; try discriminate;
      reflexivity.
Qed.
Lemma method_determined m m' : method_words m = method_words m' -> m = m' \/ m = swapped m'.
Proof.
  destruct m as [|[|u|u]], m' as [|[|u'|u']]; try destruct u; try destruct u';
    cbn; try discriminate; intros _; tauto.
Qed.
Lemma jacobian_determined j j' r r' : (seen_jacobian j ++ r = seen_jacobian j' ++ r')%list ->
  jm_matrix j = jm_matrix j' /\ jm_inverse j = jm_inverse j' /\ r = r'.
Proof.
  unfold seen_jacobian; cbn [List.app]; intros E; injection E as E; rewrite <- !app_assoc in E.
  assert (I : forall r r' : list (list string), (match jm_inverse j with
      | Some m => seen_matrix m
      | None => [["Inverse"; "jacobian"; "matrix"; "not"; "yet"; "computed"]]
      end ++ r = match jm_inverse j' with
      | Some m => seen_matrix m
      | None => [["Inverse"; "jacobian"; "matrix"; "not"; "yet"; "computed"]]
      end ++ r')%list -> jm_inverse j = jm_inverse j' /\ r = r').
  { clear E; intros s s'; destruct (jm_inverse j) as [m|], (jm_inverse j') as [m'|]; try discriminate.
    - intros E; apply matrix_determined in E; destruct E as [-> ->]; split; reflexivity.
    - cbn [List.app]; intros E; injection E as ->; split; reflexivity. }
  destruct (jm_matrix j) as [m|], (jm_matrix j') as [m'|]; try discriminate.
  - cbn [List.app] in E; apply (f_equal (skipn 2)) in E; cbn [skipn] in E.
    apply matrix_determined in E; destruct E as [-> E].
    injection E as E; apply I in E; tauto.
  - cbn [List.app] in E; injection E as E; apply I in E; tauto.
Qed.
(** The lines of the table of the variables, in one of the two formats. *)
Lemma limits_inj p p' : seen_limits p = seen_limits p' -> p = p'.
Proof.
  destruct p, p'; unfold seen_limits; cbn; intros [= E1 E2 E3 E4].
  apply inj in E1, E2, E3, E4; subst; reflexivity.
Qed.
Lemma limits_fd_inj p p' : seen_limits_fd p = seen_limits_fd p' -> p = p'.
Proof.
  destruct p as [p m a b], p' as [p' m' a' b']; unfold seen_limits_fd, seen_limits; cbn.
  intros [= E1 E2 E3 E4 E5 E6 E7]; apply inj in E1, E2, E3, E4, E6, E7.
  destruct p, p'; cbn in *; subst; destruct m, m'; try discriminate; reflexivity.
Qed.
Definition long (n : nat) (w : list string) : bool := Nat.eqb (length w) n.
Lemma numbered_long {A} n (f : A -> list string) : (forall a, length (f a) = n) ->
  forall l i, forallb (long (S n)) (numbered i (map f l)) = true.
Proof.
  intros H; induction l as [|x l IH]; intros i; cbn [map numbered forallb]; [reflexivity|].
  rewrite IH, andb_true_r; unfold long; cbn [length]; rewrite (H x), Nat.eqb_refl; reflexivity.
Qed.
(** Two tables before the title of the residuals. *)
Definition readable (its its' : list (list string)) : Prop := forall r r',
  (its ++ ["Residuals"; "configuration"] :: r = its' ++ ["Residuals"; "configuration"] :: r')%list ->
  its = its' /\ r = r'.
Lemma iteratives_determined {A} n fd (seen : A -> list string) l l' :
  (forall a, length (seen a) = S (S n)) ->
  readable (seen_iteratives fd seen l) (seen_iteratives fd seen l').
Proof.
  intros H r r' E; unfold seen_iteratives in *.
  rewrite <- !app_assoc in E; apply app_inv_head in E.
  apply (same_block (long (S (S (S n))))) in E; try (apply numbered_long, H); try reflexivity.
  destruct E as [E Er]; injection Er as ->; rewrite E; split; reflexivity.
Qed.

Lemma entry_determined version its its' e e' r r' : readable its its' ->
  well_formed e -> well_formed e' -> next_entry r -> next_entry r' ->
  (seen_entry version its e ++ r = seen_entry version its' e' ++ r')%list ->
  looks_like e e' /\ r = r' /\ (forall p is c, e = LParameters p is c -> its = its').
Proof.
  intros D H H' N N'.
  destruct e as [|p is c|k x v errors|x v errors| |j], e' as [|p' is' c'|k' x' v' errors'|x' v' errors'| |j'];
    cbn [seen_entry looks_like]; try discriminate.
  - cbn [List.app]; intros E; injection E as ->; repeat split; discriminate.
  - unfold seen_parameters; cbn [List.app]; intros E.
    assert (E0 := f_equal (fun l => nth 2 l []) E); apply (f_equal (skipn 3)) in E.
    cbn [nth skipn] in E0, E; injection E0 as E1 E2 E3 E4 E5.
    rewrite <- !app_assoc in E; apply D in E; destruct E as [-> E].
    apply (f_equal (cons ["Residuals"; "configuration"])) in E.
    apply residuals_determined in E; try assumption; destruct E as [-> ->].
    apply show_usize_inj in E1, E2; apply inj in E3; apply method_determined in E5.
    assert (sp_damping p = sp_damping p') by (destruct (sp_damping p), (sp_damping p'); try discriminate; reflexivity).
    tauto.
  - cbn [List.app]; intros E; assert (E1 := f_equal (hd []) E); apply (f_equal (@tl _)) in E.
    cbn [hd tl] in E1, E; injection E1 as E1.
    apply show_usize_inj in E1; apply point_determined in E; try assumption.
    repeat split; try tauto; discriminate.
  - cbn [List.app]; intros E; apply (f_equal (@tl _)) in E; cbn [tl] in E.
    apply point_determined in E; try assumption; repeat split; try tauto; discriminate.
  - cbn [List.app]; intros E; injection E as ->; repeat split; discriminate.
  - intros E; apply jacobian_determined in E; repeat split; try tauto; discriminate.
Qed.
Lemma log_determined version its its' : readable its its' -> forall l l',
  Forall well_formed l -> Forall well_formed l' ->
  flat_map (seen_entry version its) l = flat_map (seen_entry version its') l' ->
  Forall2 looks_like l l' /\ (forall p is c, In (LParameters p is c) l -> its = its').
Proof.
  intros D; induction l as [|e l IH]; intros [|e' l'] H H'; cbn [flat_map].
  - split; [constructor|contradiction].
  - destruct e'; discriminate.
  - destruct e; discriminate.
  - inversion_clear H; inversion_clear H'; intros E.
    apply entry_determined in E; try assumption; try apply next_entries.
    destruct E as (El & E & Ei); destruct (IH l') as [F I]; try assumption.
    split; [constructor; assumption|].
    intros p is c [->|Hin]; [exact (Ei p is c eq_refl)|exact (I p is c Hin)].
Qed.
End Reading.

(** ** The theorems *)

(** The variables of a solver: with finite differences or with a jacobian. *)
Inductive variables := WithJacobian (l : list (iterative_params f64))
                     | WithFiniteDiff (l : list (iterative_params_fd f64)).
Definition variables_text (v : variables) : outcome string :=
  match v with
  | WithJacobian l => display_iteratives (fun p => it_with_finite_diff (iterative_of_params p)) (display_limits display_f64) l
  | WithFiniteDiff l => display_iteratives (fun p => it_with_finite_diff (iterative_of_params_fd p)) (display_limits_fd display_f64) l
  end.
Definition seen_variables (v : variables) : list (list string) :=
  match v with
  | WithJacobian l => seen_iteratives false (seen_limits display_f64) l
  | WithFiniteDiff l => seen_iteratives true (seen_limits_fd display_f64) l
  end.
Lemma variables_read v text s : variables_text v = Ret text ->
  content (text ++ s) = (seen_variables v ++ content s)%list.
Proof.
  destruct v as [l|l].
  1: change (variables_text (WithJacobian l)) with (display_iteratives (fun _ => false) (display_limits display_f64) l).
  2: change (variables_text (WithFiniteDiff l)) with (display_iteratives (fun _ => true) (display_limits_fd display_f64) l).
  all: apply read_iteratives.
  - apply limits_free, display_f64_word.
  - apply limits_words, display_f64_word.
  - apply limits_fd_free, display_f64_word.
  - apply limits_fd_words, display_f64_word.
Qed.

(** Reading the text of a log gives, line by line, the words of its entries: every
    number that is shown is the one of the solver. *)
Theorem C77_log version v its_text l t :
  is_word version -> variables_text v = Ret its_text ->
  display_log display_f64 version its_text l = Ret t ->
  content t = flat_map (seen_entry display_f64 version (seen_variables v)) l.
Proof.
  intros Hv Hi; apply read_log; [apply display_f64_word|exact Hv|].
  intros s; apply variables_read, Hi.
Qed.
Print Assumptions C77_log.

(** Two logs with the same text show the same runs: same points, same values, same
    errors, same matrices, same parameters. *)
Theorem C77_same_text version v v' its_text its_text' l l' t :
  is_word version -> variables_text v = Ret its_text -> variables_text v' = Ret its_text' ->
  Forall well_formed l -> Forall well_formed l' ->
  display_log display_f64 version its_text l = Ret t ->
  display_log display_f64 version its_text' l' = Ret t ->
  Forall2 looks_like l l' /\ (forall p is c, In (LParameters p is c) l -> v = v').
Proof.
  intros Hv Hi Hi' Hw Hw' Ht Ht'.
  assert (E := eq_trans (eq_sym (C77_log _ _ _ _ _ Hv Hi Ht)) (C77_log _ _ _ _ _ Hv Hi' Ht')).
  assert (D : readable (seen_variables v) (seen_variables v')).
  { destruct v as [a|a], v' as [a'|a']; cbn [seen_variables].
    - apply (iteratives_determined 2); reflexivity.
    - intros r r' F; discriminate F.
    - intros r r' F; discriminate F.
    - apply (iteratives_determined 5); reflexivity. }
  destruct (log_determined display_f64 display_f64_injective version _ _ D _ _ Hw Hw' E) as [F G].
  split; [exact F|]; intros p is c Hin; specialize (G p is c Hin).
  destruct v as [a|a], v' as [a'|a']; cbn [seen_variables] in G; try discriminate G;
    unfold seen_iteratives in G; apply app_inv_head in G; apply numbered_inj in G; f_equal; revert G; apply map_inj.
  - apply limits_inj, display_f64_injective.
  - apply limits_fd_inj, display_f64_injective.
Qed.
Print Assumptions C77_same_text.

(** The beginning of the log of the repository (tests/log), which is the log of a
    run of the model (ValidationLog.v). *)
Example C77_case :
  firstn 13 (content
"Runner informations
===================

newton_rootfinder version: 0.6.0

Solver parameters
=================

+----------------+-----------------+-----------------+--------------------+---------------------+
|  Problem size  |  Max iteration  |    Tolerance    |  Damping activated |  Resolution Method  |
+----------------+-----------------+-----------------+--------------------+---------------------+
| 2              | 60               | 0.000001       | false              | Newton-Raphson      |
+----------------+-----------------+-----------------+--------------------+---------------------+

=========================

Iteration: 0

Max error: 32

+-------+-------------------------------+----------------------------------------------------------------+---------------------------------+
| Id    |           Iteratives          |        Left                    =                Right          |         Stopping criteria       |
+-------+-------------------------------+----------------------------------------------------------------+---------------------------------+
| 0     | 15                            | -6                             =                              0| 6                               |
+-------+-------------------------------+----------------------------------------------------------------+---------------------------------+
")
  = [["Runner"; "informations"]; ["newton_rootfinder"; "version:"; "0.6.0"];
     ["Solver"; "parameters"];
     ["Problem"; "size"; "Max"; "iteration"; "Tolerance"; "Damping"; "activated"; "Resolution"; "Method"];
     ["2"; "60"; "0.000001"; "false"; "Newton-Raphson"];
     ["Iteration:"; "0"]; ["Max"; "error:"; "32"];
     ["Id"; "Iteratives"; "Left"; "Right"; "Stopping"; "criteria"];
     ["0"; "15"; "-6"; "0"; "6"]].
Proof. reflexivity. Qed.

(** Two logs that differ in one digit of one error. *)
Definition two : f64 := nofZ 2.
Definition entry_with (e : f64) : log_entry f64 :=
  LIteration 3 [two; two] (mkResidualsValues [two; two] [two; two]) [n0; e].
Example C77_case_entries :
  well_formed (entry_with two) /\
  match display_log display_f64 "0.6.0" "" [entry_with two; LJacobian (mkJacobianMatrix (Some [[two]]) None true true)] with
  | Ret t => content t
  | Panic _ => []
  end = [["Iteration:"; "3"]; ["Max"; "error:"; "2"];
         ["Id"; "Iteratives"; "Left"; "Right"; "Stopping"; "criteria"];
         ["0"; "2"; "2"; "2"; "0"]; ["1"; "2"; "2"; "2"; "2"];
         ["Jacobian"; "matrix"]; ["Jacobian"; "up"; "to"; "date"; "with"; "its"; "inverse"]; ["Jacobian:"];
         ["┌"; "┐"]; ["│"; "2"; "│"]; ["└"; "┘"]; ["Inverse"; "of"; "the"; "jacobian"; "Matrix:"];
         ["Inverse"; "jacobian"; "matrix"; "not"; "yet"; "computed"]] /\
  ~ looks_like (entry_with two) (entry_with n1).
Proof.
  split; [repeat split|split; [vm_compute; reflexivity|]].
  intros (_ & _ & _ & E); apply (f_equal (fun l => neqb (nth 1 l n0) n1)) in E; vm_compute in E; discriminate.
Qed.
