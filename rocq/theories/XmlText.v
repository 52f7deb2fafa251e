(** The text of a configuration file.

    [root: Element = content.parse().unwrap()] (xml_file_fd.rs:59,
    xml_file_jac.rs:158) is done by the crate minidom, which is not part of the
    repository.  This is a reader for the part of XML in which the files of the
    repository and of its documentation are written: an optional declaration,
    elements with quoted attributes and the five predefined entities, comments,
    and text, which [Element::children] skips.  No namespaces, CDATA, DTD or
    numeric entities. *)
From Coq Require Import Ascii.
From Verif Require Import Base Num Residuals Iteratives Jacobian Solver F64 Text Xml.
Open Scope string_scope.

(** Part of minidom's reading, xml_file_fd.rs:59, xml_file_jac.rs:158. *)
Definition is_space (c : ascii) : bool :=
  match c with " "%char | "009"%char | "010"%char | "013"%char => true | _ => false end.
(** The characters that end a name. Part of minidom's reading, xml_file_fd.rs:59,
    xml_file_jac.rs:158. *)
Definition is_name (c : ascii) : bool :=
  negb (is_space c) &&
  match c with
  | "="%char | "/"%char | ">"%char | "<"%char | """"%char | "'"%char | "&"%char | "?"%char | "!"%char => false
  | _ => true
  end.

(** Part of minidom's reading, xml_file_fd.rs:59, xml_file_jac.rs:158. *)
Fixpoint skip_space (s : string) : string :=
  match s with
  | String c s' => if is_space c then skip_space s' else s
  | EmptyString => s
  end.
(** Part of minidom's reading, xml_file_fd.rs:59, xml_file_jac.rs:158. *)
Fixpoint read_name (s : string) : string * string :=
  match s with
  | String c s' =>
      if is_name c then let '(n, r) := read_name s' in (String c n, r) else (EmptyString, s)
  | EmptyString => (EmptyString, EmptyString)
  end.

(** The text up to the quote [q], entities replaced. Part of minidom's reading,
    xml_file_fd.rs:59, xml_file_jac.rs:158. *)
Fixpoint read_value (q : ascii) (s : string) : option (string * string) :=
  let cons c r := match r with Some (v, rest) => Some (String c v, rest) | None => None end in
  match s with
  | EmptyString => None
  | String "<" _ => None
  | String "&" (String "a" (String "m" (String "p" (String ";" s')))) => cons "&"%char (read_value q s')
  | String "&" (String "l" (String "t" (String ";" s'))) => cons "<"%char (read_value q s')
  | String "&" (String "g" (String "t" (String ";" s'))) => cons ">"%char (read_value q s')
  | String "&" (String "q" (String "u" (String "o" (String "t" (String ";" s'))))) =>
      cons """"%char (read_value q s')
  | String "&" (String "a" (String "p" (String "o" (String "s" (String ";" s'))))) =>
      cons "'"%char (read_value q s')
  | String "&" _ => None
  | String c s' => if Ascii.eqb c q then Some (EmptyString, s') else cons c (read_value q s')
  end.

(** One attribute, after the space that must precede it. Part of minidom's reading,
    xml_file_fd.rs:59, xml_file_jac.rs:158. *)
Definition read_attribute (s : string) : option (string * string * string) :=
  match read_name s with
  | (String c k, r) =>
      match skip_space r with
      | String "=" r1 =>
          match skip_space r1 with
          | String q r2 =>
              if Ascii.eqb q """" || Ascii.eqb q "'" then
                match read_value q r2 with
                | Some (v, rest) => Some (String c k, v, rest)
                | None => None
                end
              else None
          | EmptyString => None
          end
      | _ => None
      end
  | (EmptyString, _) => None
  end.
(** Part of minidom's reading, xml_file_fd.rs:59, xml_file_jac.rs:158. *)
Fixpoint read_attributes (fuel : nat) (s : string) : option (list (string * string) * string) :=
  match fuel with
  | O => None
  | S f =>
      match skip_space s with
      | String "/" _ | String ">" _ => Some ([], skip_space s)
      | s1 =>
          match s with
          | String c _ =>
              if is_space c then
                match read_attribute s1 with
                | Some (k, v, r) =>
                    match read_attributes f r with
                    | Some (l, rest) =>
                        if existsb (fun kv => if string_dec (fst kv) k then true else false) l
                        then None else Some ((k, v) :: l, rest)
                    | None => None
                    end
                | None => None
                end
              else None
          | EmptyString => None
          end
      end
  end.

(** Part of minidom's reading, xml_file_fd.rs:59, xml_file_jac.rs:158. *)
Fixpoint skip_comment (s : string) : option string :=
  match s with
  | String "-" (String "-" (String ">" s')) => Some s'
  | String _ s' => skip_comment s'
  | EmptyString => None
  end.
(** Part of minidom's reading, xml_file_fd.rs:59, xml_file_jac.rs:158. *)
Fixpoint skip_declaration (s : string) : option string :=
  match s with
  | String "?" (String ">" s') => Some s'
  | String _ s' => skip_declaration s'
  | EmptyString => None
  end.

(** A sequence of elements, up to a closing tag or the end. Part of minidom's
    reading, xml_file_fd.rs:59, xml_file_jac.rs:158. *)
Fixpoint read_elements (fuel : nat) (s : string) : option (list element * string) :=
  match fuel with
  | O => None
  | S f =>
      match s with
      | EmptyString => Some ([], s)
      | String "<" (String "/" _) => Some ([], s)
      | String "<" (String "!" (String "-" (String "-" s'))) =>
          match skip_comment s' with
          | Some r => read_elements f r
          | None => None
          end
      | String "<" s' =>
          match read_name s' with
          | (EmptyString, _) => None
          | (name, r) =>
              match read_attributes f r with
              | Some (atts, String "/" (String ">" r1)) =>
                  match read_elements f r1 with
                  | Some (l, rest) => Some (Element name atts [] :: l, rest)
                  | None => None
                  end
              | Some (atts, String ">" r1) =>
                  match read_elements f r1 with
                  | Some (children, String "<" (String "/" r2)) =>
                      match read_name r2 with
                      | (name', r3) =>
                          if string_dec name' name then
                            match skip_space r3 with
                            | String ">" r4 =>
                                match read_elements f r4 with
                                | Some (l, rest) => Some (Element name atts children :: l, rest)
                                | None => None
                                end
                            | _ => None
                            end
                          else None
                      end
                  | _ => None
                  end
              | _ => None
              end
          end
      | String _ s' => read_elements f s'
      end
  end.

(** One root element. Part of minidom's reading, xml_file_fd.rs:59,
    xml_file_jac.rs:158. *)
Definition read_document (s : string) : option element :=
  let s1 := skip_space s in
  match (match s1 with
         | String "<" (String "?" r) => skip_declaration r
         | _ => Some s1
         end) with
  | Some body =>
      match read_elements (S (String.length body)) body with
      | Some ([e], EmptyString) => Some e
      | _ => None
      end
  | None => None
  end.

(** xml_file_fd.rs:39-91, xml_file_jac.rs:138-190; [None] when the text is not
    a document (the [unwrap] of minidom's error panics). *)
Definition from_text {A} (parse : element -> parsed (configuration A)) (content : string)
  : option (parsed (configuration A)) :=
  match read_document content with
  | Some root => Some (parse root)
  | None => None
  end.
(** xml_file_fd.rs:39-49, from the contents of the file (the [fs::read_to_string] of
    line 47 is not modelled). *)
Definition from_xml_finite_diff := from_text parse_root_node_fd.
(** xml_file_jac.rs:138-148, from the contents of the file (the [fs::read_to_string]
    is not modelled). *)
Definition from_xml_jacobian := from_text parse_root_node_jac.

(** ** A writer *)

(** Not in /repo: used to state the round trip (C48). *)
Fixpoint escape (v : string) : string :=
  match v with
  | EmptyString => EmptyString
  | String c v' =>
      (match c with
       | "&"%char => "&amp;" | "<"%char => "&lt;" | ">"%char => "&gt;"
       | """"%char => "&quot;" | "'"%char => "&apos;"
       | _ => String c EmptyString
       end) ++ escape v'
  end.
(** Not in /repo: used to state the round trip (C48). *)
Fixpoint print_attributes (l : list (string * string)) : string :=
  match l with
  | [] => ""
  | (k, v) :: l' => " " ++ k ++ "=""" ++ escape v ++ """" ++ print_attributes l'
  end.
(** Not in /repo: used to state the round trip (C48). *)
Fixpoint print (e : element) : string :=
  match e with
  | Element name atts children =>
      "<" ++ name ++ print_attributes atts ++
      match children with
      | [] => "/>"
      | _ => ">" ++ String.concat "" (map print children) ++ "</" ++ name ++ ">"
      end
  end.
(** Not in /repo: used to state the round trip (C48); the declaration is that of
    xml_parser/mod.rs:16. *)
Definition print_document (e : element) : string :=
  "<?xml version=""1.0"" encoding=""UTF-8"" standalone=""no"" ?>" ++ print e.
