(** C79: the message of a refused configuration file. *)
From Coq Require Import Ascii Lia.
From Verif Require Import Base Num Residuals Iteratives Jacobian Solver F64 Text Xml PropsXml XmlText PropsXmlText.
Open Scope string_scope.

(** ** What the messages mean, independently of the parser *)

(** The nodes of a file, and how the messages call them. *)
Inductive kind := Solver_node | Iteratives_node | Iterative_node (k : nat) | Residuals_node | Residual_node (k : nat).
Definition node_at (root : element) (w : kind) : option element :=
  let child j := nth_error (el_children root) j in
  let below j k := match child j with Some n => nth_error (el_children n) k | None => None end in
  match w with
  | Solver_node => child 0%nat
  | Iteratives_node => child 1%nat
  | Iterative_node k => below 1%nat k
  | Residuals_node => child 2%nat
  | Residual_node k => below 2%nat k
  end.
Definition called (w : kind) : string :=
  match w with
  | Solver_node => "solver node"
  | Iteratives_node => "iteratives node"
  | Iterative_node k => "iterative node id = " ++ show_usize k
  | Residuals_node => "residuals node"
  | Residual_node k => "residual node id = " ++ show_usize k
  end.
(** When the id is missing it cannot be told. *)
Definition called_without_id (w : kind) : string :=
  match w with
  | Iterative_node _ => "iterative node"
  | Residual_node _ => "residual_node"
  | _ => called w
  end.

(** The attributes: the numbers and the choices. *)
Definition integers (w : kind) : list string :=
  match w with
  | Solver_node => ["problem_size"; "max_iter"]
  | Iterative_node _ | Residual_node _ => ["id"]
  | _ => []
  end.
Definition limit_names (fd : bool) : list string :=
  (["min_value"; "max_value"; "max_step_abs"; "max_step_rel"] ++ if fd then ["dx_abs"; "dx_rel"] else [])%list.
Definition floats (fd : bool) (w : kind) : list string :=
  match w with
  | Solver_node => ["tolerance"]
  | Iteratives_node | Iterative_node _ => limit_names fd
  | _ => []
  end.
Definition choices (fd : bool) (w : kind) : list string :=
  match w with
  | Solver_node => ["resolution_method"]
  | Iteratives_node => if fd then ["perturbation_method"] else []
  | Residuals_node => ["stopping_criteria"; "update_method"]
  | _ => []
  end.
Definition is_section (w : kind) : bool :=
  match w with Iterative_node _ | Residual_node _ => false | _ => true end.

(** The values of a variable that break a rule. *)
Definition breaks_a_rule (fd : bool) (own : attributes) : Prop :=
  (exists k v, In k ["max_step_abs"; "max_step_rel"] /\ says_float own k v /\ nleb v n0 = true) \/
  (exists lo hi, says_float own "min_value" lo /\ says_float own "max_value" hi /\ nleb hi lo = true) \/
  (fd = true /\ exists k v, In k ["dx_abs"; "dx_rel"] /\ says_float own k v /\ nleb v n0 = true).

(** The message [t] (or, for the refusals with a message of the standard library,
    the reason [r]) says what is wrong with the file. *)
Inductive explains (fd : bool) (root : element) : refusal -> option string -> Prop :=
| missing_number w n a : node_at root w = Some n -> is_section w = true ->
    In a (integers w ++ floats fd w)%list -> attr n a = None ->
    explains fd root (MissingInThe a (called w))
      (Some ("The attribute """ ++ a ++ """ is missing in the " ++ called w))
| missing_id w n : node_at root w = Some n -> is_section w = false -> attr n "id" = None ->
    explains fd root (MissingInThe "id" (called_without_id w))
      (Some ("The attribute ""id"" is missing in the " ++ called_without_id w))
| missing_choice w n a : node_at root w = Some n -> In a (choices fd w) -> attr n a = None ->
    explains fd root (MissingIn a (called w))
      (Some ("The attribute """ ++ a ++ """ is missing in " ++ called w))
| bad_integer w n a v : node_at root w = Some n -> In a (integers w) ->
    attr n a = Some v -> parse_usize v = None ->
    explains fd root (NotPositiveInteger a)
      (Some ("The attribute """ ++ a ++ """ is not a valid positive integer"))
| bad_float w n a v : node_at root w = Some n -> is_section w = true -> In a (floats fd w) ->
    attr n a = Some v -> parse_f64 v = None ->
    explains fd root (NotFloat a)
      (Some ("The attribute """ ++ a ++
        """ is not a valid float, for infinity, the valid values are ""-inf"" and ""inf"" "))
| bad_float_on w n a v : node_at root w = Some n -> is_section w = false -> In a (floats fd w) ->
    attr n a = Some v -> parse_f64 v = None ->
    explains fd root (NotFloatOn a (called w))
      (Some ("The attribute """ ++ a ++ """ on node " ++ called w ++
        " is not a valid float, for infinity, the valid values are ""-inf"" and ""inf"" "))
| bad_boolean n v : node_at root Solver_node = Some n -> attr n "damping" = Some v ->
    v <> "true" -> v <> "false" -> explains fd root NotBoolean None
| bad_method n v : node_at root Solver_node = Some n -> attr n "resolution_method" = Some v ->
    ~ In v ["NR"; "SN"; "BROY1"; "BROY1_INV"; "BROY2"; "BROY2_INV"; "GRST1"; "GRST1_INV"; "GRST2"; "GRST2_INV"] ->
    explains fd root (BadResolutionMethod (called Solver_node))
      (Some "The attribute ""resolution_method"" at the solver node has an improper values, valid values are ""NR"", ""SN"", ""BROY1"", ""BROY1_INV"", ""BROY2"", ""BROY2_INV"", ""GRST1"", ""GRST1_INV"", ""GRST2"", ""GRST2_INV""")
| bad_perturbation w n v : fd = true ->
    (w = Iteratives_node \/ exists k, w = Iterative_node k) ->
    node_at root w = Some n -> attr n "perturbation_method" = Some v -> ~ In v ["Sum"; "Max"] ->
    explains fd root (BadPerturbationMethod (called w))
      (Some ("The attribute ""perturbation_method"" at the " ++ called w ++
        " has an improper values, valid values are ""Sum"" and ""Max"""))
| bad_normalization w n a v :
    (w = Residuals_node \/ exists k, w = Residual_node k) -> In a (choices fd Residuals_node) ->
    node_at root w = Some n -> attr n a = Some v -> ~ In v ["Abs"; "Rel"; "Adapt"] ->
    explains fd root (BadNormalization a (called w))
      (Some ("The attribute """ ++ a ++ """ at " ++ called w ++
        " has an improper values, valid values are ""Abs"", ""Rel"" and ""Adapt"""))
| wrong_section j name n : nth_error ["solver"; "iteratives"; "residuals"] j = Some name ->
    nth_error (el_children root) j = Some n -> el_name n <> name ->
    explains fd root (WrongNode name (el_name n))
      (Some ("The node is expected to be """ ++ name ++ """, got " ++ el_name n))
| wrong_root : el_name root <> "nrf" ->
    explains fd root (WrongRoot (el_name root))
      (Some ("Expected the first node to be ""nrf"", got " ++ el_name root))
| wrong_iterative k n : node_at root (Iterative_node k) = Some n -> el_name n <> "iterative" ->
    explains fd root (WrongIterativeNode (el_name n))
      (Some ("Node below iteratives are expected to be ""iterative"", got " ++ el_name n))
| wrong_residual k n : node_at root (Residual_node k) = Some n -> el_name n <> "residual" ->
    explains fd root (WrongResidualNode (el_name n))
      (Some ("Node below residuals are expected to be ""residual"", got " ++ el_name n))
| wrong_id w k n g : (w = Iterative_node k \/ w = Residual_node k) -> node_at root w = Some n ->
    says_size (attr n) "id" g -> g <> k ->
    explains fd root (IdOutOfOrder g k)
      (Some ("The ids must be in order starting from 0, got id " ++ show_usize g ++
        " when the expected one was " ++ show_usize k))
| too_few_sections : (length (el_children root) < 3)%nat -> explains fd root MissingNode None
| wrong_number_of_variables s i n : node_at root Solver_node = Some s -> node_at root Iteratives_node = Some i ->
    says_size (attr s) "problem_size" n -> n <> length (el_children i) ->
    explains fd root (SizeIteratives n (length (el_children i)))
      (Some ("Dimension mismatch, got problem_size = " ++ show_usize n ++
        " and the number of iteratives variables is " ++ show_usize (length (el_children i))))
| wrong_number_of_residuals s r n : node_at root Solver_node = Some s -> node_at root Residuals_node = Some r ->
    says_size (attr s) "problem_size" n -> n <> length (el_children r) ->
    explains fd root (SizeResiduals n (length (el_children r)))
      (Some ("Dimension mismatch, got problem_size = " ++ show_usize n ++
        " and the number of residuals variables is " ++ show_usize (length (el_children r))))
| bad_defaults n : node_at root Iteratives_node = Some n -> breaks_a_rule fd (attr n) ->
    explains fd root (BadParameter PanicParam) None
| bad_variable k n c : node_at root Iteratives_node = Some n -> node_at root (Iterative_node k) = Some c ->
    breaks_a_rule fd (completed c n) ->
    explains fd root (BadParameter PanicParam) None.

(** ** The parser *)
Lemma pbind_refused {A B} (x : parsed A) (f : A -> parsed B) r :
  pbind x f = Refused r -> x = Refused r \/ exists a, x = Parsed a /\ f a = Refused r.
Proof.
  destruct x as [a|r']; cbn [pbind]; intros H; [right; exists a; split; [reflexivity|exact H]|left; congruence].
Qed.
Lemma required_refused {A} (o : option A) r r' : required o r = Refused r' -> o = None /\ r' = r.
Proof. destruct o; cbn [required]; [discriminate|intros [= ->]; split; reflexivity]. Qed.

Section Explained.
Context (fd : bool) (root : element).
Definition ok (r : refusal) : Prop :=
  exists t, explains fd root r t /\ (refusal_text r = t \/ exists g, r = WrongResidualNode g).
Lemma said r t : explains fd root r t -> refusal_text r = t -> ok r.
Proof. intros H E; exists t; split; [exact H|left; exact E]. Qed.
Ltac text := unfold refusal_text, quoted; rewrite ?append_assoc; reflexivity.

Lemma int_ok w n a r : node_at root w = Some n -> is_section w = true -> In a (integers w) ->
  parse_int_attribute n a (called w) = Refused r -> ok r.
Proof.
  intros N S I H; unfold parse_int_attribute in H; apply pbind_refused in H; destruct H as [H|(t & E & H)].
  - apply required_refused in H; destruct H as [H ->]; eapply said; [eapply missing_number; [exact N|exact S|apply in_or_app; left; exact I|exact H]|text].
  - apply required_iff in E; apply required_refused in H; destruct H as [H ->]; eapply said; [eapply bad_integer; eassumption|text].
Qed.
Lemma float_ok w n a r : node_at root w = Some n -> is_section w = true -> In a (floats fd w) ->
  parse_float_attribute n a (called w) = Refused r -> ok r.
Proof.
  intros N S I H; unfold parse_float_attribute in H; apply pbind_refused in H; destruct H as [H|(t & E & H)].
  - apply required_refused in H; destruct H as [H ->]; eapply said; [eapply missing_number; [exact N|exact S|apply in_or_app; right; exact I|exact H]|text].
  - apply required_iff in E; apply required_refused in H; destruct H as [H ->]; eapply said; [eapply bad_float; eassumption|text].
Qed.
Lemma float_default_ok w n a d r : node_at root w = Some n -> is_section w = false -> In a (floats fd w) ->
  parse_float_attribute_with_default n d a (called w) = Refused r -> ok r.
Proof.
  intros N S I H; unfold parse_float_attribute_with_default in H.
  destruct (attr n a) as [v|] eqn:E; [|discriminate].
  apply required_refused in H; destruct H as [H ->]; eapply said; [eapply bad_float_on; eassumption|text].
Qed.
Lemma id_ok w k n r info : node_at root w = Some n -> (w = Iterative_node k \/ w = Residual_node k) ->
  info = called_without_id w -> parse_id n k info = Refused r -> ok r.
Proof.
  intros N W -> H; unfold parse_id, parse_int_attribute in H.
  assert (S : is_section w = false) by (destruct W; subst w; reflexivity).
  assert (I : In "id" (integers w)) by (destruct W; subst w; left; reflexivity).
  apply pbind_refused in H; destruct H as [H|(g & E & H)].
  - apply pbind_refused in H; destruct H as [H|(t & E & H)]; apply required_refused in H; destruct H as [H ->].
    + eapply said; [eapply missing_id; eassumption|text].
    + apply required_iff in E; eapply said; [eapply bad_integer; eassumption|text].
  - apply int_iff in E; destruct (Nat.eqb_spec k g) as [->|D]; [discriminate|].
    injection H as <-; eapply said; [eapply wrong_id; [exact W|exact N|exact E|congruence]|text].
Qed.
Lemma solver_ok n r : node_at root Solver_node = Some n -> parse_solver_node n = Refused r -> ok r.
Proof.
  intros N H; unfold parse_solver_node in H.
  apply pbind_refused in H; destruct H as [H|(? & _ & H)].
  { eapply (int_ok Solver_node); [exact N|reflexivity|left; reflexivity|exact H]. }
  apply pbind_refused in H; destruct H as [H|(? & _ & H)].
  { eapply (int_ok Solver_node); [exact N|reflexivity|right; left; reflexivity|exact H]. }
  apply pbind_refused in H; destruct H as [H|(? & _ & H)].
  { eapply (float_ok Solver_node); [exact N|reflexivity|left; reflexivity|exact H]. }
  apply pbind_refused in H; destruct H as [H|(? & _ & H)].
  { unfold parse_resolution_method in H; apply pbind_refused in H; destruct H as [H|(t & E & H)].
    - apply required_refused in H; destruct H as [H ->]; eapply said; [eapply (missing_choice _ _ Solver_node); [exact N|left; reflexivity|exact H]|text].
    - apply required_iff in E.
      assert (B : ~ In t ["NR"; "SN"; "BROY1"; "BROY1_INV"; "BROY2"; "BROY2_INV"; "GRST1"; "GRST1_INV"; "GRST2"; "GRST2_INV"]).
      { intros I; repeat (destruct I as [<-|I]; [discriminate H|]); destruct I. }
      assert (R : r = BadResolutionMethod "solver node").
      { clear N E B.
        repeat match type of H with
               | context [match ?x with _ => _ end] => destruct x; try (injection H as <-; reflexivity); try discriminate H
               end. }
      subst r; eapply said; [eapply bad_method; eassumption|text]. }
  apply pbind_refused in H; destruct H as [H|(? & _ & H)]; [|discriminate].
  destruct (attr n "damping") as [v|] eqn:E; [|discriminate].
  apply required_refused in H; destruct H as [H ->]; eapply said; [eapply bad_boolean; [exact N|exact E|..]; intros ->; discriminate H|text].
Qed.
Lemma perturbation_ok w n v r :
  fd = true -> (w = Iteratives_node \/ exists k, w = Iterative_node k) -> node_at root w = Some n ->
  attr n "perturbation_method" = Some v -> perturbation_of v (called w) = Refused r -> ok r.
Proof.
  intros Hf W N E H.
  assert (B : ~ In v ["Sum"; "Max"]) by (intros I; repeat (destruct I as [<-|I]; [discriminate H|]); destruct I).
  assert (R : r = BadPerturbationMethod (called w)).
  { unfold perturbation_of in H; clear N E B W.
    repeat match type of H with
           | context [match ?x with _ => _ end] => destruct x; try (injection H as <-; reflexivity); try discriminate H
           end. }
  subst r; eapply said; [eapply bad_perturbation; eassumption|text].
Qed.
Lemma normalization_ok w n a v r :
  (w = Residuals_node \/ exists k, w = Residual_node k) -> In a ["stopping_criteria"; "update_method"] ->
  node_at root w = Some n ->
  attr n a = Some v -> normalization_of v a (called w) = Refused r -> ok r.
Proof.
  intros W I N E H.
  assert (B : ~ In v ["Abs"; "Rel"; "Adapt"]).
  { intros J; repeat (destruct J as [<-|J]; [discriminate H|]); destruct J. }
  assert (R : r = BadNormalization a (called w)).
  { unfold normalization_of in H; clear N E B W I.
    repeat match type of H with
           | context [match ?x with _ => _ end] => destruct x; try (injection H as <-; reflexivity); try discriminate H
           end. }
  subst r; eapply said; [eapply bad_normalization; eassumption|text].
Qed.

Lemma limit_in a : In a ["min_value"; "max_value"; "max_step_abs"; "max_step_rel"] -> In a (limit_names fd).
Proof. intros I; apply in_or_app; left; exact I. Qed.
Lemma dx_in a : fd = true -> In a ["dx_abs"; "dx_rel"] -> In a (limit_names fd).
Proof. intros Hf I; unfold limit_names; rewrite Hf; apply in_or_app; right; exact I. Qed.
Lemma new_refused own lo hi a r p :
  says_float own "min_value" lo -> says_float own "max_value" hi ->
  says_float own "max_step_abs" a -> says_float own "max_step_rel" r ->
  checked (iterative_params_new a r lo hi) = Refused p ->
  breaks_a_rule fd own /\ p = BadParameter PanicParam.
Proof.
  intros Hlo Hhi Ha Hr; unfold iterative_params_new.
  destruct (nleb a n0) eqn:Ea.
  { intros [= <-]; split; [|reflexivity]; left; exists "max_step_abs", a; split; [left; reflexivity|split; assumption]. }
  destruct (nleb r n0) eqn:Er.
  { intros [= <-]; split; [|reflexivity]; left; exists "max_step_rel", r; split; [right; left; reflexivity|split; assumption]. }
  destruct (ngeb lo hi) eqn:El; [|discriminate].
  intros [= <-]; split; [|reflexivity]; right; left; exists lo, hi; split; [exact Hlo|split; [exact Hhi|exact El]].
Qed.
Lemma extend_refused own (p : iterative_params f64) da dr m q : fd = true ->
  says_float own "dx_abs" da -> says_float own "dx_rel" dr ->
  checked (iterative_params_fd_extend p da dr m) = Refused q ->
  breaks_a_rule fd own /\ q = BadParameter PanicParam.
Proof.
  intros Hf Ha Hr; unfold iterative_params_fd_extend.
  destruct (nleb da n0) eqn:Ea.
  { intros [= <-]; split; [|reflexivity]; right; right; split; [exact Hf|];
      exists "dx_abs", da; split; [left; reflexivity|split; assumption]. }
  destruct (nleb dr n0) eqn:Er; [|discriminate].
  intros [= <-]; split; [|reflexivity]; right; right; split; [exact Hf|];
    exists "dx_rel", dr; split; [right; left; reflexivity|split; assumption].
Qed.

Section Variables.
Context (node : element) (N : node_at root Iteratives_node = Some node).
Lemma jac_node_ok r : parse_iterative_jac_node node "iteratives node" = Refused r -> ok r.
Proof.
  intros H; unfold parse_iterative_jac_node in H.
  do 4 (apply pbind_refused in H; destruct H as [H|(? & ? & H)];
        [eapply (float_ok Iteratives_node); [exact N|reflexivity| |exact H]; apply limit_in; cbn [In]; tauto|]).
  repeat match goal with E : parse_float_attribute _ _ _ = Parsed _ |- _ => apply float_iff in E end.
  eapply new_refused in H; try eassumption; destruct H as [H ->].
  eapply said; [eapply bad_defaults; eassumption|text].
Qed.
Lemma fd_node_ok r : fd = true -> parse_iterative_fd_node node "iteratives node" = Refused r -> ok r.
Proof.
  intros Hf H; unfold parse_iterative_fd_node in H.
  apply pbind_refused in H; destruct H as [H|(? & ? & H)]; [exact (jac_node_ok r H)|].
  do 2 (apply pbind_refused in H; destruct H as [H|(? & ? & H)];
        [eapply (float_ok Iteratives_node); [exact N|reflexivity| |exact H]; apply dx_in; [exact Hf|cbn [In]; tauto]|]).
  apply pbind_refused in H; destruct H as [H|(? & ? & H)].
  - unfold parse_perturbation_method in H; apply pbind_refused in H; destruct H as [H|(t & E & H)].
    + apply required_refused in H; destruct H as [H ->].
      eapply said; [eapply (missing_choice _ _ Iteratives_node); [exact N| |exact H]|text].
      cbn [choices]; rewrite Hf; left; reflexivity.
    + apply required_iff in E.
      eapply (perturbation_ok Iteratives_node); [exact Hf|left; reflexivity|exact N|exact E|exact H].
  - repeat match goal with E : parse_float_attribute _ _ _ = Parsed _ |- _ => apply float_iff in E end.
    eapply extend_refused in H; try eassumption; destruct H as [H ->].
    eapply said; [eapply bad_defaults; eassumption|text].
Qed.

Context (k : nat) (c : element) (Nc : node_at root (Iterative_node k) = Some c).
Lemma jac_child_ok d r : says_limits (attr node) d ->
  parse_iterative_jac_node_with_default c d ("iterative node id = " ++ show_usize k) = Refused r -> ok r.
Proof.
  intros (Hlo & Hhi & Ha & Hr & _) H; unfold parse_iterative_jac_node_with_default in H.
  do 4 (apply pbind_refused in H; destruct H as [H|(? & ? & H)];
        [eapply (float_default_ok (Iterative_node k)); [exact Nc|reflexivity| |exact H]; apply limit_in; cbn [In]; tauto|]).
  repeat match goal with
         | E : parse_float_attribute_with_default _ _ _ _ = Parsed _ |- _ =>
             apply (float_default_iff c node) in E; [|assumption]
         end.
  eapply new_refused in H; try eassumption; destruct H as [H ->].
  eapply said; [eapply bad_variable; eassumption|text].
Qed.
Lemma fd_child_ok d r : fd = true -> says_limits_fd (attr node) d ->
  parse_iterative_fd_node_with_default c d ("iterative node id = " ++ show_usize k) = Refused r -> ok r.
Proof.
  intros Hf (L & Ha & Hr & _) H; unfold parse_iterative_fd_node_with_default in H.
  apply pbind_refused in H; destruct H as [H|(? & ? & H)]; [exact (jac_child_ok _ _ L H)|].
  do 2 (apply pbind_refused in H; destruct H as [H|(? & ? & H)];
        [eapply (float_default_ok (Iterative_node k)); [exact Nc|reflexivity| |exact H]; apply dx_in; [exact Hf|cbn [In]; tauto]|]).
  apply pbind_refused in H; destruct H as [H|(? & ? & H)].
  - unfold parse_perturbation_method_with_default in H.
    destruct (attr c "perturbation_method") as [t|] eqn:E; [|discriminate].
    eapply (perturbation_ok (Iterative_node k)); [exact Hf|right; exists k; reflexivity|exact Nc|exact E|exact H].
  - repeat match goal with
           | E : parse_float_attribute_with_default _ _ _ _ = Parsed _ |- _ =>
               apply (float_default_iff c node) in E; [|assumption]
           end.
    eapply extend_refused in H; try eassumption; destruct H as [H ->].
    eapply said; [eapply bad_variable; eassumption|text].
Qed.
End Variables.

Lemma residual_section_ok node r : node_at root Residuals_node = Some node ->
  parse_residual_node node "residuals node" = Refused r -> ok r.
Proof.
  intros N H; unfold parse_residual_node in H.
  do 2 (apply pbind_refused in H; destruct H as [H|(? & _ & H)];
    [unfold parse_normalization_method_attribute in H; apply pbind_refused in H; destruct H as [H|(t & E & H)];
     [apply required_refused in H; destruct H as [H ->];
      eapply said; [eapply (missing_choice _ _ Residuals_node); [exact N|cbn [choices In]; tauto|exact H]|text]
     |apply required_iff in E;
      eapply (normalization_ok Residuals_node); [left; reflexivity| |exact N|exact E|exact H]; cbn [In]; tauto]|]).
  discriminate.
Qed.
Lemma residual_child_ok k c d r : node_at root (Residual_node k) = Some c ->
  parse_residual_node_with_default c d ("residual node id = " ++ show_usize k) = Refused r -> ok r.
Proof.
  intros N H; unfold parse_residual_node_with_default in H.
  do 2 (apply pbind_refused in H; destruct H as [H|(? & _ & H)];
    [unfold parse_normalization_method_attribute_with_default in H;
     match type of H with context [attr c ?a] => destruct (attr c a) as [t|] eqn:E; [|discriminate] end;
     eapply (normalization_ok (Residual_node k)); [right; exists k; reflexivity| |exact N|exact E|exact H];
     cbn [In]; tauto|]).
  discriminate.
Qed.

Lemma children_ok {A} wrong name id_info prefix (one : element -> string -> parsed A) (place : nat -> kind) l0 :
  (forall k, place k = Iterative_node k \/ place k = Residual_node k) ->
  (forall k, id_info = called_without_id (place k)) ->
  (forall k c, nth_error l0 k = Some c -> node_at root (place k) = Some c) ->
  (forall k c, nth_error l0 k = Some c -> el_name c <> name -> ok (wrong (el_name c))) ->
  (forall k c r, nth_error l0 k = Some c -> one c (prefix ++ show_usize k) = Refused r -> ok r) ->
  forall l k r, (forall i c, nth_error l i = Some c -> nth_error l0 (k + i) = Some c) ->
  parse_children wrong name id_info one prefix k l = Refused r -> ok r.
Proof.
  intros HP HI HN HW HO; induction l as [|c l IH]; intros k r Hl H; [discriminate|].
  assert (Hc : nth_error l0 k = Some c) by (rewrite <- (Nat.add_0_r k); apply Hl; reflexivity).
  cbn [parse_children] in H; apply pbind_refused in H; destruct H as [H|(? & _ & H)].
  { destruct (string_dec (el_name c) name) as [|D]; [discriminate|]; injection H as <-; eapply HW; eassumption. }
  apply pbind_refused in H; destruct H as [H|(i & E & H)].
  { eapply (id_ok (place k) k); [apply HN, Hc|apply HP|apply HI|exact H]. }
  apply id_iff in E; destruct E as [-> _].
  apply pbind_refused in H; destruct H as [H|(? & _ & H)]; [eapply HO; eassumption|].
  apply pbind_refused in H; destruct H as [H|(? & _ & H)]; [|discriminate].
  apply (IH (S k)); [|exact H].
  intros i c' Hi; rewrite Nat.add_succ_comm; apply Hl; exact Hi.
Qed.
Lemma below_ok {A} (parse_node : string -> parsed A) (one : element -> A -> string -> parsed A) node wrong name id_info prefix info r place :
  (forall k, place k = Iterative_node k \/ place k = Residual_node k) ->
  (forall k, id_info = called_without_id (place k)) ->
  (forall k c, nth_error (el_children node) k = Some c -> node_at root (place k) = Some c) ->
  (forall k c, nth_error (el_children node) k = Some c -> el_name c <> name -> ok (wrong (el_name c))) ->
  (forall r, parse_node info = Refused r -> ok r) ->
  (forall d k c r, parse_node info = Parsed d -> nth_error (el_children node) k = Some c ->
     one c d (prefix ++ show_usize k) = Refused r -> ok r) ->
  pbind (parse_node info) (fun d => parse_children wrong name id_info (fun c i => one c d i) prefix 0
                                      (el_children node)) = Refused r -> ok r.
Proof.
  intros HP HI HN HW HS HO H; apply pbind_refused in H; destruct H as [H|(d & E & H)]; [exact (HS r H)|].
  eapply (children_ok wrong name id_info prefix (fun c i => one c d i) place (el_children node)); try eassumption.
  - intros k c r' Hc H'; eapply HO; eassumption.
  - intros i c Hi; exact Hi.
Qed.

Lemma residuals_ok node r : node_at root Residuals_node = Some node ->
  parse_residuals_node node = Refused r -> ok r.
Proof.
  intros N H; unfold parse_residuals_node in H.
  apply pbind_refused in H; destruct H as [H|(d & _ & H)]; [eapply residual_section_ok; eassumption|].
  apply pbind_refused in H; destruct H as [H|(? & _ & H)]; [|discriminate].
  revert H; apply (children_ok WrongResidualNode "residual" "residual_node" "residual node id = "
    (fun c info => parse_residual_node_with_default c d info) Residual_node (el_children node)).
  - intros k; right; reflexivity.
  - reflexivity.
  - intros k c Hc; cbn [node_at] in N |- *; rewrite N; exact Hc.
  - intros k c Hc D; eexists; split; [|right; eexists; reflexivity].
    apply (wrong_residual _ _ k); [|exact D]; cbn [node_at] in N |- *; rewrite N; exact Hc.
  - intros k c r' Hc; apply residual_child_ok; cbn [node_at] in N |- *; rewrite N; exact Hc.
  - intros i c Hi; exact Hi.
Qed.

Lemma children_length {A} (parse : element -> parsed (list A)) one node l
  (HP : forall node l, parse node = Parsed l <-> says_section one "iterative" node l) :
  parse node = Parsed l -> length l = length (el_children node).
Proof. intros H; apply HP in H; destruct H as (_ & H & _); symmetry; exact H. Qed.

Lemma root_ok {A} (one : attributes -> A -> Prop) parse r
  (HP : forall node l, parse node = Parsed l <-> says_section one "iterative" node l)
  (HO : forall node r, node_at root Iteratives_node = Some node -> parse node = Refused r -> ok r) :
  parse_root_node parse root = Refused r -> ok r.
Proof.
  intros H; unfold parse_root_node in H; apply pbind_refused in H; destruct H as [H|(? & _ & H)].
  { destruct (string_dec (el_name root) "nrf") as [|D]; [discriminate|]; injection H as <-.
    eapply said; [apply wrong_root; exact D|text]. }
  assert (Few : (length (el_children root) < 3)%nat -> ok MissingNode).
  { intros L; eapply said; [apply too_few_sections, L|reflexivity]. }
  assert (Name : forall j name n u, nth_error ["solver"; "iteratives"; "residuals"] j = Some name ->
    nth_error (el_children root) j = Some n -> check_node_name_and_panic n name = Refused u -> ok u).
  { intros j name n u Hj Hn; unfold check_node_name_and_panic.
    destruct (string_dec (el_name n) name) as [|D]; [discriminate|]; intros [= <-].
    eapply said; [eapply wrong_section; eassumption|text]. }
  destruct (el_children root) as [|s tree] eqn:C.
  { injection H as <-; apply Few; cbn; lia. }
  cbn [next_node pbind] in H.
  assert (Ns : node_at root Solver_node = Some s) by (cbn [node_at]; rewrite C; reflexivity).
  apply pbind_refused in H; destruct H as [H|(? & _ & H)]; [apply (Name 0%nat "solver" s r); [reflexivity|reflexivity|exact H]|].
  apply pbind_refused in H; destruct H as [H|(p & Ep & H)]; [eapply solver_ok; eassumption|].
  destruct tree as [|i tree]; [injection H as <-; apply Few; cbn; lia|]; cbn [next_node pbind] in H.
  assert (Ni : node_at root Iteratives_node = Some i) by (cbn [node_at]; rewrite C; reflexivity).
  apply pbind_refused in H; destruct H as [H|(? & _ & H)]; [apply (Name 1%nat "iteratives" i r); [reflexivity|reflexivity|exact H]|].
  apply pbind_refused in H; destruct H as [H|(its & Ei & H)]; [eapply HO; eassumption|].
  destruct tree as [|rn tree]; [injection H as <-; apply Few; cbn; lia|]; cbn [next_node pbind] in H.
  assert (Nr : node_at root Residuals_node = Some rn) by (cbn [node_at]; rewrite C; reflexivity).
  apply pbind_refused in H; destruct H as [H|(? & _ & H)]; [apply (Name 2%nat "residuals" rn r); [reflexivity|reflexivity|exact H]|].
  apply pbind_refused in H; destruct H as [H|([stop upd] & Er & H)]; [eapply residuals_ok; eassumption|].
  apply solver_iff in Ep; destruct Ep as [Ep _].
  destruct (Nat.eqb_spec (sp_problem_size p) (length its)) as [E1|E1]; cbn [negb] in H.
  - destruct (Nat.eqb_spec (sp_problem_size p) (length stop)) as [E2|E2]; cbn [negb] in H; [discriminate|].
    injection H as <-.
    apply residuals_iff in Er; destruct Er as (rs & (_ & L & _) & E); injection E as -> _.
    rewrite map_length, <- L in E2 |- *.
    eapply said; [eapply wrong_number_of_residuals; eassumption|text].
  - injection H as <-; rewrite (children_length parse one i its HP Ei) in E1 |- *.
    eapply said; [eapply wrong_number_of_variables; eassumption|text].
Qed.
End Explained.

(** ** C79 *)

(** The message of a refused file describes a fault of the file: the attribute
    it names is missing or has the wrong form in the node that it names, and so
    on; except for the name that it says a child of the residuals should have. *)
Theorem C79_finite_differences root r : parse_root_node_fd root = Refused r ->
  exists t, explains true root r t /\ (refusal_text r = t \/ exists g, r = WrongResidualNode g).
Proof.
  apply (root_ok true root says_limits_fd).
  - intros node l; apply (section_iff says_limits_fd node (parse_iterative_fd_node node) parse_iterative_fd_node_with_default).
    + intros info d; apply fd_node_iff.
    + intros d c info a; apply fd_child_iff.
  - intros node u N H.
    unfold parse_iteratives_fd_node in H; revert H.
    apply (below_ok true root (parse_iterative_fd_node node) parse_iterative_fd_node_with_default node
      WrongIterativeNode "iterative" "iterative node" "iterative node id = " "iteratives node" u Iterative_node).
    + intros k; left; reflexivity.
    + reflexivity.
    + intros k c Hc; cbn [node_at] in N |- *; rewrite N; exact Hc.
    + intros k c Hc D; eapply said; [|unfold refusal_text, quoted; rewrite ?append_assoc; reflexivity].
      apply (wrong_iterative _ _ k); [|exact D]; cbn [node_at] in N |- *; rewrite N; exact Hc.
    + intros u'; apply fd_node_ok; [exact N|reflexivity].
    + intros d k c u' E Hc; apply (fd_child_ok true root node N k c); [|reflexivity|].
      * cbn [node_at] in N |- *; rewrite N; exact Hc.
      * apply fd_node_iff in E; exact E.
Qed.
Print Assumptions C79_finite_differences.
Theorem C79_jacobian root r : parse_root_node_jac root = Refused r ->
  exists t, explains false root r t /\ (refusal_text r = t \/ exists g, r = WrongResidualNode g).
Proof.
  apply (root_ok false root says_limits).
  - intros node l; apply (section_iff says_limits node (parse_iterative_jac_node node) parse_iterative_jac_node_with_default).
    + intros info d; apply jac_node_iff.
    + intros d c info a; apply jac_child_iff.
  - intros node u N H.
    unfold parse_iteratives_jac_node in H; revert H.
    apply (below_ok false root (parse_iterative_jac_node node) parse_iterative_jac_node_with_default node
      WrongIterativeNode "iterative" "iterative node" "iterative node id = " "iteratives node" u Iterative_node).
    + intros k; left; reflexivity.
    + reflexivity.
    + intros k c Hc; cbn [node_at] in N |- *; rewrite N; exact Hc.
    + intros k c Hc D; eapply said; [|unfold refusal_text, quoted; rewrite ?append_assoc; reflexivity].
      apply (wrong_iterative _ _ k); [|exact D]; cbn [node_at] in N |- *; rewrite N; exact Hc.
    + intros u'; apply jac_node_ok; exact N.
    + intros d k c u' E Hc; apply (jac_child_ok false root node N k c).
      * cbn [node_at] in N |- *; rewrite N; exact Hc.
      * apply jac_node_iff in E; exact E.
Qed.
Print Assumptions C79_jacobian.

(** From the text of the file. *)
Theorem C79_text text r :
  (from_xml_finite_diff text = Some (Refused r) ->
   exists root t, read_document text = Some root /\ explains true root r t /\
     (refusal_text r = t \/ exists g, r = WrongResidualNode g)) /\
  (from_xml_jacobian text = Some (Refused r) ->
   exists root t, read_document text = Some root /\ explains false root r t /\
     (refusal_text r = t \/ exists g, r = WrongResidualNode g)).
Proof.
  split; unfold from_xml_finite_diff, from_xml_jacobian, from_text;
    (destruct (read_document text) as [root|]; [|discriminate]); intros H; exists root.
  - destruct (C79_finite_differences root r (f_equal (fun o => match o with Some x => x | None => Refused r end) H))
      as (t & E & T); exists t; split; [reflexivity|split; assumption].
  - destruct (C79_jacobian root r (f_equal (fun o => match o with Some x => x | None => Refused r end) H))
      as (t & E & T); exists t; split; [reflexivity|split; assumption].
Qed.
Print Assumptions C79_text.

(** The message of a wrongly named residual names a name that is refused too. *)
Lemma residual_message fd root g t : refusal_text (WrongResidualNode g) = Some t ->
  ~ explains fd root (WrongResidualNode g) (Some t).
Proof.
  intros [= <-] H; inversion H.
Qed.
Definition misnamed (name : string) : string :=
  document solver_text (two_iteratives "id=""0""" "id=""1""")
    ("<residuals stopping_criteria=""Abs"" update_method=""Rel""><" ++ name ++ " id=""0""/><" ++ name ++ " id=""1""/></residuals>").
Theorem C79_residual_name_refuted : exists text r t,
  from_xml_jacobian text = Some (Refused r) /\ refusal_text r = Some t /\
  t = "Node below residuals are expected to be ""residuals"", got residuals" /\
  forall root, ~ explains false root r (Some t).
Proof.
  exists (misnamed "residuals"), (WrongResidualNode "residuals"), "Node below residuals are expected to be ""residuals"", got residuals".
  split; [vm_compute; reflexivity|split; [reflexivity|split; [reflexivity|]]].
  intros root; apply residual_message; reflexivity.
Qed.
Print Assumptions C79_residual_name_refuted.

(** Messages of faulty files. *)
Definition message (t : string) : option string :=
  match from_xml_jacobian t with Some (Refused r) => refusal_text r | _ => None end.
Example C79_case :
  message (misnamed "residual") = None /\
  message (document "<solver problem_size=""2"" tolerance=""1e-6"" resolution_method=""NR""/>"
             (two_iteratives "id=""0""" "id=""1""") residuals_text)
    = Some "The attribute ""max_iter"" is missing in the solver node" /\
  message (document solver_text (two_iteratives "id=""0""" "id=""0""") residuals_text)
    = Some "The ids must be in order starting from 0, got id 0 when the expected one was 1" /\
  message (document solver_text (two_iteratives "id=""0""" "id=""1"" min_value=""low""") residuals_text)
    = Some "The attribute ""min_value"" on node iterative node id = 1 is not a valid float, for infinity, the valid values are ""-inf"" and ""inf"" ".
Proof. vm_compute; repeat split; reflexivity. Qed.
