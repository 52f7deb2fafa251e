(** C80: the layout of a configuration file does not matter. *)
From Coq Require Import Ascii Lia.
From Verif Require Import Base Num Residuals Iteratives Jacobian Solver F64 Text Xml PropsXml XmlText PropsXmlText.
Open Scope string_scope.

(** ** The texts of a tree *)

Definition blank (s : string) : Prop := all_chars is_space s = true.
Definition quote (q : ascii) : Prop := q = """"%char \/ q = "'"%char.
Definition entities : list (string * ascii) :=
  [("amp", "&"%char); ("lt", "<"%char); ("gt", ">"%char); ("quot", """"%char); ("apos", "'"%char)].
(** A value between quotes [q]; no tabs and no ends of lines. *)
Inductive value_text (q : ascii) : string -> string -> Prop :=
| value_nil : value_text q "" ""
| value_char c v s : c <> q -> c <> "<"%char -> c <> "&"%char -> (c = " "%char \/ is_space c = false) ->
    value_text q v s -> value_text q (String c v) (String c s)
| value_entity n c v s : In (n, c) entities -> value_text q v s ->
    value_text q (String c v) ("&" ++ n ++ ";" ++ s).
(** The attributes, separated by white space, with either quotes and white space
    around the equal sign. *)
Inductive attributes_text : list (string * string) -> string -> Prop :=
| attributes_nil b : blank b -> attributes_text [] b
| attributes_cons b k b1 b2 q v s l t : blank b -> b <> "" -> good_name k -> blank b1 -> blank b2 -> quote q ->
    value_text q v s -> ~ In k (map fst l) -> attributes_text l t ->
    attributes_text ((k, v) :: l) (b ++ k ++ b1 ++ "=" ++ b2 ++ String q (s ++ String q t)).
(** No two dashes in a row, none at the end. *)
Fixpoint no_dashes (s : string) : bool :=
  match s with
  | EmptyString => true
  | String c s' => (if Ascii.eqb c "-" then match s' with String c' _ => negb (Ascii.eqb c' "-") | EmptyString => false end
                    else true) && no_dashes s'
  end.
Definition between (c : ascii) : bool := negb (Ascii.eqb c "<") && negb (Ascii.eqb c "&").
(** A sequence of elements, with comments and characters [chars] between them,
    and any text inside of them. *)
Inductive content_text : (ascii -> bool) -> list element -> string -> Prop :=
| content_nil chars : content_text chars [] ""
| content_char (chars : ascii -> bool) c l s : chars c = true -> between c = true -> content_text chars l s ->
    content_text chars l (String c s)
| content_comment chars w l s : no_dashes w = true -> content_text chars l s ->
    content_text chars l ("<!--" ++ w ++ "-->" ++ s)
| content_empty chars name atts a l s : good_name name -> attributes_text atts a -> content_text chars l s ->
    content_text chars (Element name atts [] :: l) ("<" ++ name ++ a ++ "/>" ++ s)
| content_full chars name atts a children inner b l s : good_name name -> attributes_text atts a ->
    content_text between children inner -> blank b -> content_text chars l s ->
    content_text chars (Element name atts children :: l)
      ("<" ++ name ++ a ++ ">" ++ inner ++ "</" ++ name ++ b ++ ">" ++ s).
(** The declaration at the beginning of the file may be absent. *)
Fixpoint no_question (s : string) : bool :=
  match s with EmptyString => true | String c s' => negb (Ascii.eqb c "?") && no_question s' end.
Definition declaration (d : string) : Prop := d = "" \/ exists w, no_question w = true /\ d = "<?" ++ w ++ "?>".
Definition document_text (e : element) (t : string) : Prop :=
  exists b d s, blank b /\ declaration d /\ content_text is_space [e] s /\ t = b ++ d ++ s.

(** ** Reading them *)
Lemma skip_blank b s : blank b -> skip_space (b ++ s) = skip_space s.
Proof.
  unfold blank; induction b as [|c b IH]; intros H; cbn [append skip_space]; [reflexivity|].
  cbn [all_chars] in H; apply andb_prop in H; destruct H as [H1 H2]; rewrite H1; exact (IH H2).
Qed.
Lemma skip_name k s : good_name k -> skip_space (k ++ s) = k ++ s.
Proof.
  intros [NE G]; destruct k as [|c k]; [contradiction|].
  cbn [append skip_space]; cbn [all_chars] in G; apply andb_prop in G; destruct G as [G _].
  rewrite (is_name_not_space _ G); reflexivity.
Qed.
Lemma blank_ends_name b s : blank b -> ends_name s -> ends_name (b ++ s).
Proof.
  intros B E; destruct b as [|c b]; [exact E|].
  unfold blank in B; cbn [all_chars] in B; apply andb_prop in B; destruct B as [B _].
  cbn [append ends_name]; unfold is_name; rewrite B; reflexivity.
Qed.

Lemma read_value_text q v s rest : quote q -> value_text q v s -> read_value q (s ++ String q rest) = Some (v, rest).
Proof.
  intros Q V; induction V as [|c v s Hq Hl Ha Hs V IH|n c v s I V IH].
  - destruct Q; subst q; reflexivity.
  - cbn [append].
    assert (E : Ascii.eqb c q = false) by (apply Ascii.eqb_neq, Hq).
    transitivity (if Ascii.eqb c q then Some ("", s ++ String q rest)
                  else match read_value q (s ++ String q rest) with
                       | Some (v, rest) => Some (String c v, rest) | None => None end).
    + destruct c as [[] [] [] [] [] [] [] []]; try reflexivity; congruence.
    + rewrite E, IH; reflexivity.
  - cbn [append]; unfold entities in I.
    repeat (destruct I as [I|I]; [injection I as <- <-; cbn [append]; cbn [read_value]; rewrite IH; reflexivity|]).
    destruct I.
Qed.

Lemma read_attribute_text k b1 b2 q v s rest : good_name k -> blank b1 -> blank b2 -> quote q -> value_text q v s ->
  read_attribute (k ++ b1 ++ "=" ++ b2 ++ String q (s ++ String q rest)) = Some (k, v, rest).
Proof.
  intros [NE G] B1 B2 Q V; unfold read_attribute.
  rewrite read_name_app by (exact G || (apply blank_ends_name; [exact B1|reflexivity])).
  destruct k as [|c k]; [contradiction|].
  rewrite (skip_blank b1) by exact B1.
  change (skip_space ("=" ++ b2 ++ String q (s ++ String q rest)))
    with (String "=" (b2 ++ String q (s ++ String q rest))); cbn match.
  rewrite (skip_blank b2) by exact B2.
  assert (E : skip_space (String q (s ++ String q rest)) = String q (s ++ String q rest))
    by (destruct Q; subst q; reflexivity).
  rewrite E; cbn match.
  assert (Eq : (Ascii.eqb q """" || Ascii.eqb q "'")%bool = true) by (destruct Q; subst q; reflexivity).
  rewrite Eq, (read_value_text q v s rest Q V); reflexivity.
Qed.

Lemma read_attributes_text l a : attributes_text l a -> forall rest fuel, ends_tag rest -> (length l < fuel)%nat ->
  read_attributes fuel (a ++ rest) = Some (l, rest).
Proof.
  intros A; induction A as [b B|b k b1 b2 q v s l t B NB K B1 B2 Q V NI A IH]; intros rest fuel E HF;
    (destruct fuel as [|f]; cbn [length] in HF; [lia|]).
  - cbn [read_attributes]; rewrite (skip_blank b) by exact B.
    assert (S : skip_space rest = rest).
    { destruct rest as [|[[] [] [] [] [] [] [] []] rest]; cbn in E; try contradiction; reflexivity. }
    rewrite S; destruct rest as [|[[] [] [] [] [] [] [] []] rest]; cbn in E; try contradiction; reflexivity.
  - assert (R : (b ++ k ++ b1 ++ "=" ++ b2 ++ String q (s ++ String q t)) ++ rest
                = b ++ k ++ b1 ++ "=" ++ b2 ++ String q (s ++ String q (t ++ rest))).
    { rewrite !app_assoc_s; cbn [append]; rewrite !app_assoc_s; reflexivity. }
    rewrite R; clear R.
    assert (RA := read_attribute_text k b1 b2 q v s (t ++ rest) K B1 B2 Q V).
    cbn [read_attributes]; rewrite (skip_blank b) by exact B; rewrite (skip_name k) by exact K.
    assert (RL : read_attributes f (t ++ rest) = Some (l, rest)) by (apply IH; [exact E|lia]).
    assert (EX : existsb (fun kv : string * string => if string_dec (fst kv) k then true else false) l = false).
    { destruct (existsb _ l) eqn:EB; [|reflexivity]; exfalso; apply NI.
      apply existsb_exists in EB; destruct EB as ([k' v'] & HI & HE); cbn [fst] in HE.
      destruct (string_dec k' k) as [->|]; [|discriminate].
      apply in_map_iff; exists (k, v'); split; [reflexivity|exact HI]. }
    destruct b as [|cb b]; [contradiction|]; unfold blank in B; cbn [all_chars] in B; apply andb_prop in B.
    destruct B as [Hb _]; cbn [append]; rewrite Hb.
    destruct K as [NE G]; destruct k as [|c k]; [contradiction|].
    cbn [append all_chars] in *; apply andb_prop in G; destruct G as [G _].
    destruct c as [[] [] [] [] [] [] [] []]; cbn in G; try discriminate G; cbn match; rewrite RA, RL, EX; reflexivity.
Qed.

Lemma skip_comment_text w s : no_dashes w = true -> skip_comment (w ++ "-->" ++ s) = Some s.
Proof.
  induction w as [|c w IH]; intros H; [reflexivity|].
  cbn [no_dashes] in H; apply andb_prop in H; destruct H as [H1 H2]; specialize (IH H2).
  cbn [append]; cbn [append] in IH.
  destruct (Ascii.eqb_spec c "-") as [->|D].
  - destruct w as [|d w]; [discriminate H1|].
    cbn [append] in *; apply negb_true_iff, Ascii.eqb_neq in H1.
    transitivity (skip_comment (String d (w ++ String "-" (String "-" (String ">" s))))); [|exact IH].
    destruct d as [[] [] [] [] [] [] [] []]; try reflexivity; congruence.
  - transitivity (skip_comment (w ++ String "-" (String "-" (String ">" s)))); [|exact IH].
    destruct c as [[] [] [] [] [] [] [] []]; try reflexivity; congruence.
Qed.
Lemma skip_declaration_text w s : no_question w = true -> skip_declaration (w ++ "?>" ++ s) = Some s.
Proof.
  induction w as [|c w IH]; intros H; [reflexivity|].
  cbn [no_question] in H; apply andb_prop in H; destruct H as [H1 H2]; specialize (IH H2).
  cbn [append] in *; apply negb_true_iff, Ascii.eqb_neq in H1.
  transitivity (skip_declaration (w ++ String "?" (String ">" s))); [|exact IH].
  destruct c as [[] [] [] [] [] [] [] []]; try reflexivity; congruence.
Qed.

Lemma attributes_text_length l a : attributes_text l a -> (length l <= String.length a)%nat.
Proof.
  induction 1 as [|b k b1 b2 q v s l t B NB K B1 B2 Q V NI A IH]; cbn [length]; [lia|].
  rewrite !app_length_s; cbn [String.length]; rewrite app_length_s; cbn [String.length]; lia.
Qed.
Lemma attributes_text_ends l a s : attributes_text l a -> ends_name s -> ends_name (a ++ s).
Proof.
  intros A E; destruct A as [b B|b k b1 b2 q v t l u B NB K B1 B2 Q V NI A]; [apply blank_ends_name; assumption|].
  rewrite app_assoc_s; destruct b as [|c b]; [contradiction|].
  unfold blank in B; cbn [all_chars] in B; apply andb_prop in B; destruct B as [B _].
  cbn [append ends_name]; unfold is_name; rewrite B; reflexivity.
Qed.

Lemma read_elements_text chars l s : content_text chars l s -> forall rest fuel, ends_elements rest ->
  (String.length s < fuel)%nat -> read_elements fuel (s ++ rest) = Some (l, rest).
Proof.
  intros C; induction C as [chars|chars c l s Hc Hb C IH|chars w l s Hw C IH
      |chars name atts a l s G A C IH|chars name atts a children inner b l s G A Ci IHi B C IH];
    intros rest fuel E HF.
  - apply read_elements_stop; [exact E|lia].
  - destruct fuel as [|f]; [lia|]; cbn [String.length] in HF; cbn [append].
    transitivity (read_elements f (s ++ rest)); [|apply IH; [exact E|lia]].
    unfold between in Hb; apply andb_prop in Hb; destruct Hb as [Hb _]; apply negb_true_iff, Ascii.eqb_neq in Hb.
    destruct c as [[] [] [] [] [] [] [] []]; try reflexivity; congruence.
  - destruct fuel as [|f]; [lia|]; rewrite !app_length_s in HF; cbn [String.length] in HF.
    rewrite !app_assoc_s; cbn [append read_elements].
    pose proof (skip_comment_text w (s ++ rest) Hw) as SC; cbn [append] in SC; rewrite SC.
    apply IH; [exact E|lia].
  - destruct fuel as [|f]; [lia|]; rewrite !app_length_s in HF; cbn [String.length] in HF.
    pose proof (attributes_text_length _ _ A) as LA.
    rewrite !app_assoc_s, tag_open; [|exact G|apply (attributes_text_ends _ _ _ A); reflexivity].
    rewrite (read_attributes_text _ _ A); [|exact I|lia].
    cbn [append]; rewrite IH; [reflexivity|exact E|lia].
  - destruct fuel as [|f]; [lia|]; rewrite !app_length_s in HF; cbn [String.length] in HF.
    pose proof (attributes_text_length _ _ A) as LA.
    rewrite !app_assoc_s, tag_open; [|exact G|apply (attributes_text_ends _ _ _ A); reflexivity].
    rewrite (read_attributes_text _ _ A); [|exact I|lia].
    cbn [append].
    rewrite IHi; [|right; eexists; reflexivity|lia].
    cbn match; destruct G as [NE G].
    rewrite read_name_app; [|exact G|apply blank_ends_name; [exact B|reflexivity]].
    destruct (string_dec name name); [|contradiction].
    rewrite (skip_blank b) by exact B; cbn [append skip_space]; change (is_space ">") with false; cbn match.
    rewrite IH; [reflexivity|exact E|lia].
Qed.

Lemma content_starts chars l s : content_text chars l s -> chars = is_space -> l <> [] -> exists s', skip_space s = String "<" s' /\
  (match s' with String "?" _ => False | _ => True end) /\ content_text chars l (skip_space s).
Proof.
  intros C; induction C as [chars|chars c l s Hc Hb C IH|chars w l s Hw C IH
      |chars name atts a l s G A C IH|chars name atts a children inner b l s G A Ci IHi B C IH]; intros -> L.
  - contradiction.
  - destruct (IH eq_refl L) as (s' & E & Q & C'); exists s'; cbn [skip_space]; rewrite Hc; repeat split; assumption.
  - eexists; split; [reflexivity|split; [exact I|]]; exact (content_comment _ _ _ _ Hw C).
  - exists (name ++ a ++ "/>" ++ s); split; [reflexivity|split].
    + destruct G as [NE G]; destruct name as [|c name]; [contradiction|]; cbn [all_chars] in G; apply andb_prop in G.
      destruct G as [G _]; cbn [append]; destruct c as [[] [] [] [] [] [] [] []]; cbn in G; try discriminate G; exact I.
    + exact (content_empty _ _ _ _ _ _ G A C).
  - exists (name ++ a ++ ">" ++ inner ++ "</" ++ name ++ b ++ ">" ++ s); split; [reflexivity|split].
    + destruct G as [NE G]; destruct name as [|c name]; [contradiction|]; cbn [all_chars] in G; apply andb_prop in G.
      destruct G as [G _]; cbn [append]; destruct c as [[] [] [] [] [] [] [] []]; cbn in G; try discriminate G; exact I.
    + exact (content_full _ _ _ _ _ _ _ _ _ G A Ci B C).
Qed.
Lemma read_content e s : content_text is_space [e] s ->
  match read_elements (S (String.length s)) s with Some ([e0], EmptyString) => Some e0 | _ => None end = Some e.
Proof.
  intros C; pose proof (read_elements_text _ _ _ C "" (S (String.length s)) (or_introl eq_refl) (Nat.lt_succ_diag_r _)) as R.
  rewrite app_empty_s in R; rewrite R; reflexivity.
Qed.

(** ** C80 *)

(** The white space, and the characters of names. *)
Theorem C80_characters c :
  (is_space c = true <-> In c [" "; "009"; "010"; "013"]%char) /\
  (is_name c = true <-> ~ In c [" "; "009"; "010"; "013"; "="; "/"; ">"; "<"; """"; "'"; "&"; "?"; "!"]%char).
Proof.
  assert (D : forall l, existsb (Ascii.eqb c) l = true <-> In c l).
  { intros l; rewrite existsb_exists; split; [intros (x & Hx & E); apply Ascii.eqb_eq in E; congruence|].
    intros H; exists c; split; [exact H|apply Ascii.eqb_refl]. }
  rewrite <- !D, Bool.not_true_iff_false; clear D.
  assert (E : is_space c = existsb (Ascii.eqb c) [" "; "009"; "010"; "013"]%char /\
              is_name c = negb (existsb (Ascii.eqb c) [" "; "009"; "010"; "013"; "="; "/"; ">"; "<"; """"; "'"; "&"; "?"; "!"]%char))
    by (destruct c as [[] [] [] [] [] [] [] []]; split; reflexivity).
  destruct E as [-> ->]; rewrite Bool.negb_true_iff; tauto.
Qed.
Print Assumptions C80_characters.

(** Every text of a tree is read as this tree. *)
Theorem C80_layout e t : document_text e t -> read_document t = Some e.
Proof.
  intros (b & d & s & B & D & C & ->); unfold read_document; rewrite (skip_blank b) by exact B.
  destruct D as [->|(w & W & ->)].
  - cbn [append]; destruct (content_starts _ _ _ C eq_refl ltac:(discriminate)) as (s' & E & Q & C').
    pose proof (read_content e _ C') as R; rewrite E in R |- *.
    destruct s' as [|c s']; [exact R|].
    destruct c as [[] [] [] [] [] [] [] []]; solve [exact R|destruct Q].
  - rewrite !app_assoc_s; cbn [append skip_space]; change (is_space "<") with false; cbn match.
    pose proof (skip_declaration_text w s W) as S; cbn [append] in S; rewrite S.
    exact (read_content e s C).
Qed.
Print Assumptions C80_layout.

(** The texts of a tree configure the same solver, or are refused for the same
    reason. *)
Theorem C80_same e t : document_text e t ->
  from_xml_finite_diff t = Some (parse_root_node_fd e) /\ from_xml_jacobian t = Some (parse_root_node_jac e).
Proof.
  intros D; unfold from_xml_finite_diff, from_xml_jacobian, from_text.
  rewrite (C80_layout e t D); split; reflexivity.
Qed.
Print Assumptions C80_same.

(** A text with tabs, ends of lines, both quotes, a comment and a declaration that
    contains ">". *)
Definition tab : string := String "009" EmptyString.
Definition eol : string := String "013" (String "010" EmptyString).
Definition small : element := Element "nrf" [] [Element "solver" [("a", "1<"); ("b", "it's")] []].
Definition small_text : string :=
  eol ++ "<?xml a>b?>" ++ eol ++ "<!-- a - <b> --><nrf" ++ eol ++ ">" ++ tab ++ "text<solver" ++ tab ++ "a" ++ eol ++
  "= '1&lt;'" ++ eol ++ tab ++ "b=""it's"" /></nrf >" ++ eol.
Example C80_case : document_text small small_text /\ read_document small_text = Some small /\
  read_document ("<nrf" ++ eol ++ "a='1' a='2'/>") = None /\ read_document "<nrf a=1/>" = None.
Proof.
  assert (D : document_text small small_text).
  { exists eol, "<?xml a>b?>", (eol ++ "<!-- a - <b> --><nrf" ++ eol ++ ">" ++ tab ++ "text<solver" ++ tab ++ "a" ++ eol ++
      "= '1&lt;'" ++ eol ++ tab ++ "b=""it's"" /></nrf >" ++ eol).
    split; [reflexivity|split; [right; exists "xml a>b"; split; reflexivity|split; [|reflexivity]]].
    do 2 (apply content_char; [reflexivity|reflexivity|]).
    apply (content_comment is_space " a - <b> "); [reflexivity|].
    apply (content_full is_space "nrf" [] eol [Element "solver" [("a", "1<"); ("b", "it's")] []]
      (tab ++ "text<solver" ++ tab ++ "a" ++ eol ++ "= '1&lt;'" ++ eol ++ tab ++ "b=""it's"" />") " ");
      [split; [discriminate|reflexivity]|apply attributes_nil; reflexivity| |reflexivity|].
    - do 5 (apply content_char; [reflexivity|reflexivity|]).
      apply (content_empty between "solver" _ (tab ++ "a" ++ eol ++ "= '1&lt;'" ++ eol ++ tab ++ "b=""it's"" ") [] "");
        [split; [discriminate|reflexivity]| |apply content_nil].
      apply (attributes_cons tab "a" eol " " "'" "1<" "1&lt;" _ (eol ++ tab ++ "b=""it's"" "));
        [reflexivity|discriminate|split; [discriminate|reflexivity]|reflexivity|reflexivity|right; reflexivity|..].
      + apply value_char; try discriminate; [right; reflexivity|].
        apply (value_entity _ "lt"); [cbn [In entities]; tauto|apply value_nil].
      + intros [E|[]]; discriminate E.
      + apply (attributes_cons (eol ++ tab) "b" "" "" """" "it's" "it's" [] " ");
          [reflexivity|discriminate|split; [discriminate|reflexivity]|reflexivity|reflexivity|left; reflexivity|..].
        * do 4 (apply value_char; try discriminate; [right; reflexivity|]); apply value_nil.
        * intros [].
        * apply attributes_nil; reflexivity.
    - do 2 (apply content_char; [reflexivity|reflexivity|]); apply content_nil. }
  split; [exact D|split; [apply C80_layout, D|split; reflexivity]].
Qed.
