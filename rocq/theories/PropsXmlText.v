(** C48: files round-trip, as texts. *)
From Coq Require Import Ascii.
From Verif Require Import Base Num Residuals Iteratives Jacobian Solver F64 Text Xml XmlText PropsXml
  ValidationXml.
Open Scope string_scope.

(** ** Reading back what is printed *)

Fixpoint all_chars (f : ascii -> bool) (s : string) : bool :=
  match s with String c s' => f c && all_chars f s' | EmptyString => true end.
Definition good_name (s : string) : Prop := s <> "" /\ all_chars is_name s = true.
(** A tree that can be written: names are names, and the attributes of an
    element are distinct. *)
Inductive writable : element -> Prop :=
  writable_element name atts children :
    good_name name -> Forall good_name (map fst atts) -> NoDup (map fst atts) ->
    Forall writable children -> writable (Element name atts children).

Lemma app_assoc_s (a b c : string) : (a ++ b) ++ c = a ++ (b ++ c).
Proof. induction a as [|x a IH]; cbn; [reflexivity|now rewrite IH]. Qed.
Lemma app_empty_s (a : string) : a ++ "" = a.
Proof. induction a as [|x a IH]; cbn; [reflexivity|now rewrite IH]. Qed.
Lemma app_length_s (a b : string) : String.length (a ++ b) = (String.length a + String.length b)%nat.
Proof. induction a as [|x a IH]; cbn; [reflexivity|now rewrite IH]. Qed.

Definition ends_name (s : string) : Prop :=
  match s with String c _ => is_name c = false | EmptyString => True end.
Lemma read_name_app n rest : all_chars is_name n = true -> ends_name rest ->
  read_name (n ++ rest) = (n, rest).
Proof.
  induction n as [|c n IH]; cbn [all_chars append read_name]; intros H E.
  - destruct rest as [|c rest]; [reflexivity|]; cbn [read_name]; cbn in E; rewrite E; reflexivity.
  - apply andb_prop in H; destruct H as [H1 H2]; rewrite H1, (IH H2 E); reflexivity.
Qed.

Lemma read_value_char c s v rest : read_value """" s = Some (v, rest) ->
  read_value """" (escape (String c EmptyString) ++ s) = Some (String c v, rest).
Proof.
  intros H; cbn [escape]; rewrite app_empty_s.
  destruct c as [[] [] [] [] [] [] [] []]; cbn; rewrite H; reflexivity.
Qed.
Lemma escape_cons c v : escape (String c v) = escape (String c EmptyString) ++ escape v.
Proof. cbn [escape]; rewrite app_empty_s; reflexivity. Qed.
Lemma read_value_escape v rest : read_value """" (escape v ++ String """" rest) = Some (v, rest).
Proof.
  induction v as [|c v IH]; [reflexivity|].
  rewrite escape_cons, app_assoc_s; apply read_value_char, IH.
Qed.

Lemma is_name_not_space c : is_name c = true -> is_space c = false.
Proof. unfold is_name; destruct (is_space c); [discriminate|reflexivity]. Qed.
Lemma read_attribute_printed k v rest : good_name k ->
  read_attribute (k ++ "=""" ++ escape v ++ """" ++ rest) = Some (k, v, rest).
Proof.
  intros [NE G]; unfold read_attribute.
  rewrite read_name_app by (exact G || reflexivity).
  destruct k as [|c k]; [contradiction|]; cbn [append].
  change (skip_space (String "=" (String """" (escape v ++ String """" rest))))
    with (String "=" (String """" (escape v ++ String """" rest))); cbn match.
  change (skip_space (String """" (escape v ++ String """" rest)))
    with (String """" (escape v ++ String """" rest)); cbn match.
  change (Ascii.eqb """" """" || Ascii.eqb """" "'")%bool with true; cbn match.
  rewrite read_value_escape; reflexivity.
Qed.

Definition ends_tag (s : string) : Prop :=
  match s with String "/" _ | String ">" _ => True | _ => False end.
Lemma read_attributes_printed rest : ends_tag rest -> forall l fuel, (length l < fuel)%nat ->
  Forall good_name (map fst l) -> NoDup (map fst l) ->
  read_attributes fuel (print_attributes l ++ rest) = Some (l, rest).
Proof.
  intros E; induction l as [|[k v] l IH]; intros [|f] HF G ND; cbn [length] in HF; try lia.
  - cbn [print_attributes append read_attributes].
    destruct rest as [|[[] [] [] [] [] [] [] []] rest]; cbn in E; try contradiction; reflexivity.
  - cbn [print_attributes map fst] in *.
    inversion G as [|? ? G1 G2]; subst; inversion ND as [|? ? N1 N2]; subst.
    rewrite !app_assoc_s; cbn [append read_attributes skip_space].
    change (is_space " ") with true; cbn match.
    assert (SK : forall s, skip_space (k ++ s) = k ++ s).
    { intros s; destruct G1 as [NE G1]; destruct k as [|c k]; [contradiction|].
      cbn [append skip_space]; cbn [all_chars] in G1; apply andb_prop in G1; destruct G1 as [G1 _].
      rewrite (is_name_not_space _ G1); reflexivity. }
    rewrite SK.
    pose proof (read_attribute_printed k v (print_attributes l ++ rest) G1) as RA.
    cbn [append] in RA |- *.
    assert (RL : read_attributes f (print_attributes l ++ rest) = Some (l, rest)) by (apply IH; auto; lia).
    assert (EX : existsb (fun kv : string * string => if string_dec (fst kv) k then true else false) l = false).
    { destruct (existsb _ l) eqn:EB; [|reflexivity]; exfalso; apply N1.
      apply existsb_exists in EB; destruct EB as ([k' v'] & HI & HE); cbn [fst] in HE.
      destruct (string_dec k' k) as [->|]; [|discriminate].
      apply in_map_iff; exists (k, v'); auto. }
    destruct G1 as [NE G1]; destruct k as [|c k]; [contradiction|].
    cbn [append all_chars] in *; apply andb_prop in G1; destruct G1 as [G1 _].
    destruct c as [[] [] [] [] [] [] [] []]; cbn in G1; try discriminate G1; cbn match;
      rewrite RA, RL, EX; reflexivity.
Qed.

(** Elements are well founded through their children. *)
Lemma element_rect' (P : element -> Prop)
  (H : forall name atts children, Forall P children -> P (Element name atts children)) : forall e, P e.
Proof.
  fix IH 1; intros [name atts children]; apply H.
  induction children as [|c l IHl]; constructor; [apply IH|exact IHl].
Qed.

Definition ends_elements (s : string) : Prop :=
  s = "" \/ exists s', s = String "<" (String "/" s').

Fixpoint print_all (l : list element) : string :=
  match l with [] => "" | e :: l' => print e ++ print_all l' end.
Lemma concat_print l : String.concat "" (map print l) = print_all l.
Proof.
  induction l as [|e l IH]; [reflexivity|]; destruct l as [|e' l].
  - cbn; rewrite app_empty_s; reflexivity.
  - change (String.concat "" (map print (e :: e' :: l)))
      with (print e ++ "" ++ String.concat "" (map print (e' :: l))).
    rewrite IH; reflexivity.
Qed.
Lemma print_shape name atts children : print (Element name atts children) =
  "<" ++ name ++ print_attributes atts ++
  match children with
  | [] => "/>"
  | _ => ">" ++ print_all children ++ "</" ++ name ++ ">"
  end.
Proof. cbn [print]; destruct children; [reflexivity|]; rewrite concat_print; reflexivity. Qed.

Lemma printed_attributes_length l : (length l <= String.length (print_attributes l))%nat.
Proof. induction l as [|[k v] l IH]; cbn [print_attributes length]; [lia|]; rewrite !app_length_s; cbn; lia. Qed.

(** The branch taken after a name. *)
Lemma tag_open f name s : good_name name -> ends_name s ->
  read_elements (S f) ("<" ++ name ++ s) =
  match read_attributes f s with
  | Some (atts, String "/" (String ">" r1)) =>
      match read_elements f r1 with
      | Some (l, rest) => Some (Element name atts [] :: l, rest)
      | None => None
      end
  | Some (atts, String ">" r1) =>
      match read_elements f r1 with
      | Some (children, String "<" (String "/" r2)) =>
          match read_name r2 with
          | (name', r3) =>
              if string_dec name' name then
                match skip_space r3 with
                | String ">" r4 =>
                    match read_elements f r4 with
                    | Some (l, rest) => Some (Element name atts children :: l, rest)
                    | None => None
                    end
                | _ => None
                end
              else None
          end
      | _ => None
      end
  | _ => None
  end.
Proof.
  intros [NE G] E; pose proof (read_name_app name s G E) as RN.
  destruct name as [|c name]; [contradiction|].
  cbn [append] in *; cbn [all_chars] in G; apply andb_prop in G; destruct G as [G _].
  cbn [read_elements]; rewrite RN.
  destruct c as [[] [] [] [] [] [] [] []]; cbn in G; try discriminate G; reflexivity.
Qed.

Lemma attributes_end_name atts s : ends_name s -> ends_name (print_attributes atts ++ s).
Proof. destruct atts as [|[k v] atts]; [auto|reflexivity]. Qed.

Lemma read_elements_stop fuel s : ends_elements s -> (0 < fuel)%nat -> read_elements fuel s = Some ([], s).
Proof. intros [->|(s' & ->)] H; destruct fuel; try lia; reflexivity. Qed.

Lemma read_elements_printed : forall l fuel rest, Forall writable l -> ends_elements rest ->
  (String.length (print_all l) < fuel)%nat ->
  read_elements fuel (print_all l ++ rest) = Some (l, rest).
Proof.
  (* the statement for the children of one element, by induction on the element *)
  assert (ONE : forall e, writable e -> forall l fuel rest, Forall writable l -> ends_elements rest ->
    (String.length (print e ++ print_all l) < fuel)%nat ->
    (forall fuel, (String.length (print_all l) < fuel)%nat ->
       read_elements fuel (print_all l ++ rest) = Some (l, rest)) ->
    read_elements fuel ((print e ++ print_all l) ++ rest) = Some (e :: l, rest)).
  { induction e as [name atts children IHc] using element_rect'.
    intros WE l fuel rest WL ER HF TAIL; inversion WE as [? ? ? G GA ND WC]; subst.
    assert (CH : forall cs fuel rest, Forall writable cs -> incl cs children -> ends_elements rest ->
      (String.length (print_all cs) < fuel)%nat ->
      read_elements fuel (print_all cs ++ rest) = Some (cs, rest)).
    { clear - IHc; induction cs as [|c cs IH]; intros fuel rest WC IN ER HF.
      - apply read_elements_stop; [exact ER|lia].
      - inversion WC as [|? ? W1 W2]; subst; cbn [print_all] in *.
        rewrite Forall_forall in IHc; apply (IHc c); auto.
        + apply IN; left; reflexivity.
        + intros f Hf; apply IH; auto; intros x Hx; apply IN; right; exact Hx. }
    rewrite print_shape in HF |- *; rewrite !app_length_s in HF.
    destruct fuel as [|f]; [lia|].
    pose proof (printed_attributes_length atts) as LA.
    rewrite !app_assoc_s.
    rewrite tag_open; [|exact G|].
    2:{ apply attributes_end_name; destruct children; reflexivity. }
    cbn [String.length] in HF; destruct children as [|c cs].
    - rewrite read_attributes_printed; [|exact I|lia|exact GA|exact ND].
      cbn [append]; rewrite TAIL; [reflexivity|lia].
    - set (cc := c :: cs) in *; rewrite !app_length_s in HF; cbn [String.length] in HF.
      rewrite !app_assoc_s.
      rewrite read_attributes_printed; [|exact I|lia|exact GA|exact ND].
      cbn [append].
      rewrite (CH cc); [|exact WC|apply incl_refl| |lia].
      2:{ right; eexists; cbn [append]; reflexivity. }
      cbn match; destruct G as [NE G].
      rewrite read_name_app; [|exact G|reflexivity].
      destruct (string_dec name name); [|contradiction].
      cbn [append skip_space]; change (is_space ">") with false; cbn match.
      rewrite TAIL; [reflexivity|lia]. }
  induction l as [|e l IH]; intros fuel rest WL ER HF.
  - apply read_elements_stop; [exact ER|lia].
  - inversion WL as [|? ? W1 W2]; subst; cbn [print_all] in *; apply ONE; auto.
Qed.

Lemma read_body e : writable e -> read_elements (S (String.length (print e))) (print e) = Some ([e], "").
Proof.
  intros W; pose proof (read_elements_printed [e] (S (String.length (print e))) "") as H.
  cbn [print_all] in H; rewrite !app_empty_s in H; apply H.
  - constructor; [exact W|constructor].
  - left; reflexivity.
  - lia.
Qed.

Theorem read_printed : forall e, writable e -> read_document (print_document e) = Some e.
Proof.
  intros e W; unfold read_document, print_document.
  change (match skip_declaration (" version=""1.0"" encoding=""UTF-8"" standalone=""no"" ?>" ++ print e)
          with Some body =>
            match read_elements (S (String.length body)) body with
            | Some ([e0], EmptyString) => Some e0
            | _ => None
            end
          | None => None end = Some e).
  cbn [append skip_declaration].
  rewrite (read_body e W); reflexivity.
Qed.
Print Assumptions read_printed.

(** Conversely, whatever is read can be written: names are names, and no element
    has two attributes of the same name. *)
Lemma read_name_good s c n r : read_name s = (String c n, r) -> good_name (String c n).
Proof.
  intros E; split; [discriminate|].
  revert c n r E; induction s as [|d s IH]; cbn [read_name]; intros c n r E; [discriminate|].
  destruct (is_name d) eqn:D; [|discriminate].
  destruct (read_name s) as [n' r'] eqn:R; injection E as <- <- <-.
  cbn [all_chars]; rewrite D; cbn [andb].
  destruct n' as [|c' n']; [reflexivity|]; exact (IH c' n' r' eq_refl).
Qed.

Lemma read_attribute_good s k v r : read_attribute s = Some (k, v, r) -> good_name k.
Proof.
  unfold read_attribute; intros E.
  destruct (read_name s) as [n r0] eqn:R; destruct n as [|c n]; [discriminate|].
  assert (G := read_name_good _ _ _ _ R).
  repeat match type of E with
  | match ?x with _ => _ end = _ => destruct x; try discriminate
  | (if ?x then _ else _) = _ => destruct x; try discriminate
  end; injection E as <- _ _; exact G.
Qed.

Lemma read_attributes_good : forall fuel s l rest, read_attributes fuel s = Some (l, rest) ->
  Forall good_name (map fst l) /\ NoDup (map fst l).
Proof.
  induction fuel as [|f IH]; intros s l rest E; cbn [read_attributes] in E; [discriminate|].
  assert (STEP : forall s1, match s with
          | String c _ =>
              if is_space c then
                match read_attribute s1 with
                | Some (k, v, r) =>
                    match read_attributes f r with
                    | Some (l, rest) =>
                        if existsb (fun kv => if string_dec (fst kv) k then true else false) l
                        then None else Some ((k, v) :: l, rest)
                    | None => None
                    end
                | None => None
                end
              else None
          | EmptyString => None
          end = Some (l, rest) -> Forall good_name (map fst l) /\ NoDup (map fst l)).
  { clear E; intros s1 E; destruct s as [|c s]; [discriminate|].
    destruct (is_space c); [|discriminate].
    destruct (read_attribute s1) as [[[k v] r]|] eqn:RA; [|discriminate].
    destruct (read_attributes f r) as [[l0 rest0]|] eqn:RL; [|discriminate].
    destruct (existsb _ l0) eqn:EX; [discriminate|]; injection E as <- <-.
    destruct (IH _ _ _ RL) as [G ND]; cbn [map fst].
    split; constructor; auto.
    - exact (read_attribute_good _ _ _ _ RA).
    - intros HI; apply in_map_iff in HI; destruct HI as ([k' v'] & K & HI); cbn [fst] in K; subst k'.
      assert (T : existsb (fun kv : string * string => if string_dec (fst kv) k then true else false) l0 = true).
      { apply existsb_exists; exists (k, v'); split; [exact HI|]; cbn [fst].
        destruct (string_dec k k); [reflexivity|contradiction]. }
      congruence. }
  assert (NIL : Some (@nil (string * string), skip_space s) = Some (l, rest) ->
    Forall good_name (map fst l) /\ NoDup (map fst l)).
  { intros Q; injection Q as <- _; split; constructor. }
  destruct (skip_space s) as [|c s1]; [exact (STEP EmptyString E)|].
  destruct c as [[] [] [] [] [] [] [] []]; first [exact (NIL E)|match type of E with context [read_attribute ?a] => exact (STEP a E) end].
Qed.

Lemma read_elements_good : forall fuel s l rest, read_elements fuel s = Some (l, rest) -> Forall writable l.
Proof.
  induction fuel as [|f IH]; intros s l rest E; cbn [read_elements] in E; [discriminate|].
  assert (TAIL : forall s', match read_name s' with
          | (EmptyString, _) => None
          | (name, r) =>
              match read_attributes f r with
              | Some (atts, String "/" (String ">" r1)) =>
                  match read_elements f r1 with
                  | Some (l, rest) => Some (Element name atts [] :: l, rest)
                  | None => None
                  end
              | Some (atts, String ">" r1) =>
                  match read_elements f r1 with
                  | Some (children, String "<" (String "/" r2)) =>
                      match read_name r2 with
                      | (name', r3) =>
                          if string_dec name' name then
                            match skip_space r3 with
                            | String ">" r4 =>
                                match read_elements f r4 with
                                | Some (l, rest) => Some (Element name atts children :: l, rest)
                                | None => None
                                end
                            | _ => None
                            end
                          else None
                      end
                  | _ => None
                  end
              | _ => None
              end
          end = Some (l, rest) -> Forall writable l).
  { clear E; intros s' E; destruct (read_name s') as [name r] eqn:RN.
    destruct name as [|c name]; [discriminate|].
    assert (GN := read_name_good _ _ _ _ RN).
    destruct (read_attributes f r) as [[atts r0]|] eqn:RA; [|discriminate].
    destruct (read_attributes_good _ _ _ _ RA) as [GA ND].
    destruct r0 as [|d r0]; [discriminate|].
    destruct d as [[] [] [] [] [] [] [] []]; try discriminate E.
    - destruct r0 as [|d r0]; [discriminate|].
      destruct d as [[] [] [] [] [] [] [] []]; try discriminate E.
      destruct (read_elements f r0) as [[l0 rest0]|] eqn:RL; [|discriminate].
      injection E as <- _; constructor; [|exact (IH _ _ _ RL)].
      constructor; auto.
    - destruct (read_elements f r0) as [[ch [|d1 r1]]|] eqn:RC; [discriminate| |discriminate].
      assert (GC := IH _ _ _ RC).
      destruct d1 as [[] [] [] [] [] [] [] []]; try discriminate E.
      destruct r1 as [|d2 r2]; [discriminate|].
      destruct d2 as [[] [] [] [] [] [] [] []]; try discriminate E.
      destruct (read_name r2) as [name' r3].
      destruct (string_dec name' (String c name)); [|discriminate].
      destruct (skip_space r3) as [|d3 r4]; [discriminate|].
      destruct d3 as [[] [] [] [] [] [] [] []]; try discriminate E.
      destruct (read_elements f r4) as [[l0 rest0]|] eqn:RL; [|discriminate].
      injection E as <- _; constructor; [|exact (IH _ _ _ RL)].
      constructor; auto. }
  destruct s as [|c s]; [injection E as <- _; constructor|].
  destruct c as [[] [] [] [] [] [] [] []]; try exact (IH _ _ _ E).
  destruct s as [|c s]; [discriminate|].
  destruct c as [[] [] [] [] [] [] [] []];
    try match type of E with context [read_name ?a] => exact (TAIL a E) end;
    [injection E as <- _; constructor|].
  destruct s as [|c s]; [match type of E with context [read_name ?a] => exact (TAIL a E) end|].
  destruct c as [[] [] [] [] [] [] [] []];
    try match type of E with context [read_name ?a] => exact (TAIL a E) end.
  destruct s as [|c s]; [match type of E with context [read_name ?a] => exact (TAIL a E) end|].
  destruct c as [[] [] [] [] [] [] [] []];
    try match type of E with context [read_name ?a] => exact (TAIL a E) end.
  destruct (skip_comment s); [exact (IH _ _ _ E)|discriminate].
Qed.

Theorem read_writable : forall s e, read_document s = Some e -> writable e.
Proof.
  intros s e E; unfold read_document in E.
  match type of E with match ?x with _ => _ end = _ => destruct x as [body|]; [|discriminate] end.
  destruct (read_elements (S (String.length body)) body) as [[[|e1 [|e2 l]] rest]|] eqn:R;
    try discriminate.
  assert (G := read_elements_good _ _ _ _ R).
  destruct rest; [|discriminate]; injection E as <-; inversion G; assumption.
Qed.
Print Assumptions read_writable.

(** An attribute given twice, on the root or inside. *)
Example read_writable_case :
  read_document "<a x=""1"" y=""2""><b x=""3""/></a>"
  = Some (Element "a" [("x", "1"); ("y", "2")] [Element "b" [("x", "3")] []]) /\
  read_document "<a x=""1"" y=""2"" x=""1""/>" = None /\
  read_document "<a><b x=""3"" x=""4""></b></a>" = None.
Proof. vm_compute; repeat split; reflexivity. Qed.

(** Comments are skipped. *)
Fixpoint no_double_dash (t : string) : bool :=
  match t with
  | String "-" (String "-" _) => false
  | String _ t' => no_double_dash t'
  | EmptyString => true
  end.
Lemma skip_comment_text t s : no_double_dash t = true -> skip_comment (t ++ "-->" ++ s) = Some s.
Proof.
  induction t as [|c t IH]; intros H; [reflexivity|].
  assert (K : no_double_dash t = true -> skip_comment (t ++ "-->" ++ s) = Some s) by exact IH.
  clear IH; change (String c t ++ "-->" ++ s) with (String c (t ++ "-->" ++ s)).
  destruct c as [[] [] [] [] [] [] [] []]; try exact (K H).
  destruct t as [|d t]; [reflexivity|].
  change (String d t ++ "-->" ++ s) with (String d (t ++ "-->" ++ s)) in *.
  destruct d as [[] [] [] [] [] [] [] []]; try exact (K H); discriminate H.
Qed.
Theorem read_comment : forall t s f, no_double_dash t = true ->
  read_elements (S f) ("<!--" ++ t ++ "-->" ++ s) = read_elements f s.
Proof.
  intros t s f H.
  change (match skip_comment (t ++ "-->" ++ s) with
          | Some r => read_elements f r | None => None end = read_elements f s).
  rewrite (skip_comment_text t s H); reflexivity.
Qed.
Example read_comment_case :
  read_document "<a><!-- <b/> - --><c/><!----></a>" = Some (Element "a" [] [Element "c" [] []]) /\
  read_document "<a><!-- <b/></a>" = None.
Proof. vm_compute; split; reflexivity. Qed.

(** ** C48 *)

Lemma own_names compact parent l : Forall good_name (map fst l) ->
  Forall good_name (map fst (own_attributes compact parent l)).
Proof.
  unfold own_attributes; destruct compact; [|auto].
  rewrite !Forall_forall; intros H x HI; apply H; apply in_map_iff in HI.
  destruct HI as (kt & <- & HI); apply filter_In in HI; apply in_map_iff; exists kt; tauto.
Qed.
Lemma own_keys compact parent l k : In k (map fst (own_attributes compact parent l)) -> In k (map fst l).
Proof.
  unfold own_attributes; destruct compact; [|auto].
  intros HI; apply in_map_iff in HI; destruct HI as (kt & <- & HI); apply filter_In in HI.
  apply in_map_iff; exists kt; tauto.
Qed.
Lemma own_distinct compact parent l : NoDup (map fst l) -> NoDup (map fst (own_attributes compact parent l)).
Proof.
  unfold own_attributes; destruct compact; [|auto].
  induction l as [|kt l IH]; cbn; [auto|]; intros ND; inversion ND as [|? ? N1 N2]; subst.
  destruct (match assoc parent (fst kt) with Some t => _ | None => _ end); [|auto].
  cbn; constructor; [|auto].
  intros HI; apply N1; apply in_map_iff in HI; destruct HI as (kt' & <- & HI); apply filter_In in HI.
  apply in_map_iff; exists kt'; tauto.
Qed.

Lemma writable_section {A} one valid write (W : @writes A one valid write) compact sect name d l :
  (forall a, Forall good_name (map fst (write a))) -> good_name sect -> good_name name ->
  writable (write_section compact sect name write d l).
Proof.
  intros GW GS GN; constructor; [exact GS|apply GW|apply W|].
  generalize 0%nat; induction l as [|a l IH]; intros k; cbn [write_children]; constructor; [|apply IH].
  constructor; [exact GN| | |constructor].
  - constructor; [split; [discriminate|reflexivity]|apply own_names, GW].
  - constructor; [|apply own_distinct, W].
    intros HI; apply own_keys in HI; exact (w_no_id _ _ _ W a HI).
Qed.
Ltac good := repeat constructor; discriminate.
Lemma writable_configuration {A} one valid write (W : @writes A one valid write) compact text d dr c :
  (forall a, Forall good_name (map fst (write a))) ->
  writable (write_configuration compact text write d dr c).
Proof.
  intros GW; constructor; [good|constructor|constructor|].
  constructor; [|constructor; [|constructor; [|constructor]]].
  - constructor; [good| | |constructor].
    + cbn; repeat (constructor; [good|]); constructor.
    + cbn; distinct.
  - apply (writable_section _ _ _ W); [exact GW|good|good].
  - apply (writable_section _ _ _ writes_residual); [|good|good].
    intros a; cbn; repeat (constructor; [good|]); constructor.
Qed.

Theorem C48_finite_differences_text : forall compact text d dr c,
  faithful text -> valid_limits_fd d -> valid_configuration valid_limits_fd c ->
  from_xml_finite_diff
    (print_document (write_configuration compact text (write_limits_fd text) d dr c)) = Some (Parsed c).
Proof.
  intros compact text d dr c T VD V; unfold from_xml_finite_diff, from_text.
  rewrite read_printed.
  - rewrite C48_finite_differences by assumption; reflexivity.
  - apply (writable_configuration _ _ _ (writes_limits_fd text T)).
    intros a; cbn; repeat (constructor; [good|]); constructor.
Qed.
Print Assumptions C48_finite_differences_text.
Theorem C48_jacobian_text : forall compact text d dr c,
  faithful text -> valid_limits d -> valid_configuration valid_limits c ->
  from_xml_jacobian
    (print_document (write_configuration compact text (write_limits text) d dr c)) = Some (Parsed c).
Proof.
  intros compact text d dr c T VD V; unfold from_xml_jacobian, from_text.
  rewrite read_printed.
  - rewrite C48_jacobian by assumption; reflexivity.
  - apply (writable_configuration _ _ _ (writes_limits text T)).
    intros a; cbn; repeat (constructor; [good|]); constructor.
Qed.
Print Assumptions C48_jacobian_text.

(** ** Cases *)

(** A configuration in which both children differ from the defaults of the
    section, with an infinite limit. *)
Definition two_limits : configuration (iterative_params f64) :=
  mkConfiguration (mkSolverParameters 2 (dec 1 4) 60 (QuasiNewton (InverseJacobianUpdate BroydenSecondMethod)) true)
    [mkIterativeParams (dec 5 1) pinf ninf (dec 3 2); free] [Rel; Abs] [Abs; Adapt].
Lemma two_limits_valid : valid_configuration valid_limits two_limits.
Proof.
  repeat split; try (vm_compute; congruence); repeat constructor; vm_compute; reflexivity.
Qed.
Lemma free_valid : valid_limits free.
Proof. repeat split; vm_compute; reflexivity. Qed.

(** The compact document omits the defaults, and is read back. *)
Example C48_case :
  exists t, print_document (write_configuration true show_f64 (write_limits show_f64) free
                              (mkResidualConfig Abs Abs) two_limits) = t /\
    contains ("<iterative id=""0"" max_value=""" ++ show_f64 (dec 3 2) ++
              """ max_step_abs=""" ++ show_f64 (dec 5 1) ++ """/>") t = true /\
    contains "<iterative id=""1""/>" t = true /\
    from_xml_jacobian t = Some (Parsed two_limits).
Proof.
  eexists; split; [reflexivity|]; split; [|split].
  - vm_compute; reflexivity.
  - vm_compute; reflexivity.
  - apply C48_jacobian_text; [exact C48_numbers|exact free_valid|exact two_limits_valid].
Qed.

Definition solver_text := "<solver problem_size=""2"" max_iter=""60"" tolerance=""1e-6"" resolution_method=""NR""/>".
Definition limits_text :=
  "min_value=""-inf"" max_value=""inf"" max_step_abs=""10"" max_step_rel=""inf""".
Definition residuals_text :=
  "<residuals stopping_criteria=""Abs"" update_method=""Rel""><residual id=""0""/><residual id=""1"" update_method=""Adapt""/></residuals>".
Definition document (solver iteratives residuals : string) : string :=
  "<nrf>" ++ solver ++ iteratives ++ residuals ++ "</nrf>".
Definition two_iteratives (first second : string) : string :=
  "<iteratives " ++ limits_text ++ "><iterative " ++ first ++ "/><iterative " ++ second ++ "/></iteratives>".
Definition good_document : string :=
  document solver_text (two_iteratives "id=""0"" min_value=""-1""" "id=""1"" max_step_abs=""3.5""") residuals_text.

(** C49: each child has its own value where it gives one, the parent's
    elsewhere; damping is off. *)
Example C49_case : returns good_document parse_root_node_jac (eq_configuration eq_limits)
  (mkConfiguration (mkSolverParameters 2 (dec 1 1000000) 60 NewtonRaphson false)
     [mkIterativeParams (dec 10 1) pinf (dec (-1) 1) pinf;
      mkIterativeParams (dec 35 10) pinf ninf pinf]
     [Abs; Abs] [Rel; Adapt]) = true.
Proof. vm_compute; reflexivity. Qed.

(** C50: one defect at a time in that document. *)
Definition refused (t : string) : bool :=
  match from_xml_jacobian t with Some (Refused _) => true | _ => false end.
Example C50_case :
  refused good_document = false /\
  (* a section missing, out of order, or misnamed *)
  refused (document solver_text "" residuals_text) = true /\
  refused (document (two_iteratives "id=""0""" "id=""1""") solver_text residuals_text) = true /\
  refused (document solver_text (two_iteratives "id=""0""" "id=""1""")
             "<residual stopping_criteria=""Abs"" update_method=""Rel""/>") = true /\
  (* ids *)
  refused (document solver_text (two_iteratives "id=""1""" "id=""0""") residuals_text) = true /\
  refused (document solver_text (two_iteratives "id=""0""" "id=""0""") residuals_text) = true /\
  refused (document solver_text (two_iteratives "id=""0""" "name=""x""") residuals_text) = true /\
  (* counts *)
  refused (document "<solver problem_size=""3"" max_iter=""60"" tolerance=""1e-6"" resolution_method=""NR""/>"
             (two_iteratives "id=""0""" "id=""1""") residuals_text) = true /\
  refused (document solver_text (two_iteratives "id=""0""" "id=""1""")
             "<residuals stopping_criteria=""Abs"" update_method=""Rel""><residual id=""0""/></residuals>") = true /\
  (* attributes missing, unreadable, unknown *)
  refused (document "<solver problem_size=""2"" tolerance=""1e-6"" resolution_method=""NR""/>"
             (two_iteratives "id=""0""" "id=""1""") residuals_text) = true /\
  refused (document "<solver problem_size=""2"" max_iter=""60"" tolerance=""1e-6x"" resolution_method=""NR""/>"
             (two_iteratives "id=""0""" "id=""1""") residuals_text) = true /\
  refused (document "<solver problem_size=""2"" max_iter=""60"" tolerance=""1e-6"" damping=""yes"" resolution_method=""NR""/>"
             (two_iteratives "id=""0""" "id=""1""") residuals_text) = true /\
  refused (document solver_text (two_iteratives "id=""0"" min_value=""low""" "id=""1""") residuals_text) = true /\
  (* limits *)
  refused (document solver_text (two_iteratives "id=""0"" max_step_abs=""0""" "id=""1""") residuals_text) = true /\
  refused (document solver_text (two_iteratives "id=""0"" max_value=""1"" min_value=""1""" "id=""1""") residuals_text) = true.
Proof. vm_compute; repeat split; reflexivity. Qed.

(** The documentation's own example of a solver node (xml_file_jac.rs:53) is
    rejected: the method is written with its type name. *)
Theorem C50_documented_example :
  refused (document "<solver problem_size=""2"" max_iter=""60"" tolerance=""1e-6"" damping=""true"" resolution_method=""NewtonRaphson""/>"
             (two_iteratives "id=""0""" "id=""1""") residuals_text) = true.
Proof. vm_compute; reflexivity. Qed.
Print Assumptions C50_documented_example.

(** What is not rejected: a limit that is not a number, and a fourth section. *)
Theorem C50_nan_limit_refuted : exists root c p,
  parse_root_node_jac root = Parsed c /\ In p (cf_iteratives c) /\
  nisnan (max_step_abs p) = true /\ nisnan (min_value p) = true.
Proof.
  destruct (read_document (document solver_text
    (two_iteratives "id=""0"" max_step_abs=""NaN"" min_value=""NaN""" "id=""1""") residuals_text))
    as [root|] eqn:E; [|vm_compute in E; discriminate].
  exists root; destruct (parse_root_node_jac root) as [c|r] eqn:P.
  - exists c.
    assert (X : match parse_root_node_jac root with
                | Parsed c => match cf_iteratives c with
                              | p :: _ => nisnan (max_step_abs p) && nisnan (min_value p)
                              | [] => false
                              end
                | Refused _ => false
                end = true).
    { assert (Y : match read_document (document solver_text
                   (two_iteratives "id=""0"" max_step_abs=""NaN"" min_value=""NaN""" "id=""1""") residuals_text)
                 with Some root => match parse_root_node_jac root with
                   | Parsed c => match cf_iteratives c with
                                 | p :: _ => nisnan (max_step_abs p) && nisnan (min_value p)
                                 | [] => false
                                 end
                   | Refused _ => false
                   end
                 | None => false end = true) by (vm_compute; reflexivity).
      rewrite E in Y; exact Y. }
    rewrite P in X; destruct (cf_iteratives c) as [|p l] eqn:L; [discriminate|].
    apply andb_prop in X; destruct X; exists p; repeat split; auto; left; reflexivity.
  - exfalso.
    assert (Y : match read_document (document solver_text
                   (two_iteratives "id=""0"" max_step_abs=""NaN"" min_value=""NaN""" "id=""1""") residuals_text)
                 with Some root => match parse_root_node_jac root with Parsed _ => true | Refused _ => false end
                 | None => false end = true) by (vm_compute; reflexivity).
    rewrite E, P in Y; discriminate.
Qed.
Print Assumptions C50_nan_limit_refuted.
Example C50_extra_section :
  refused (document solver_text (two_iteratives "id=""0""" "id=""1""") (residuals_text ++ "<solver/>")) = false /\
  refused (document solver_text (two_iteratives "id=""+0""" "id=""01""") residuals_text) = false.
Proof. vm_compute; split; reflexivity. Qed.

(** C51: the files of tests/parser give a solver. *)
Definition starts {A} (parse : element -> parsed (configuration A)) (its : A -> iterative f64) (t : string)
  (guess : list f64) : bool :=
  match read_document t with
  | Some root =>
      match parse root with
      | Parsed c =>
          match residuals_config_new (cf_stopping c) (cf_update c) with
          | Ret conf => match rootfinder_new (cf_parameters c) guess (map its (cf_iteratives c)) conf with
                        | Ret _ => true | Panic _ => false end
          | Panic _ => false
          end
      | Refused _ => false
      end
  | None => false
  end.
Example C51_case :
  starts parse_root_node_fd iterative_of_params_fd data_fd [n0; n0; n0] = true /\
  starts parse_root_node_jac iterative_of_params data_jac [n0; n0; n0] = true /\
  (* a guess of another size is refused *)
  starts parse_root_node_jac iterative_of_params data_jac [n0; n0] = false.
Proof. vm_compute; repeat split; reflexivity. Qed.
