(** C52, C53: the texts shown identify the methods and the errors. *)
From Coq Require Import Ascii Floats.SpecFloat.
From Flocq Require Import BinarySingleNaN.
From Verif Require Import Base Num Linalg Residuals Iteratives UserModel Jacobian Solver F64 Text Xml PropsXml
  Samples FlowFacts Display.
Open Scope string_scope.

(** ** Numbers *)

Lemma same_sf_eq a b : same_sf a b = true -> a = b.
Proof.
  destruct a, b; cbn [same_sf]; try discriminate; rewrite !andb_true_iff; intros [[H1 H2] H3].
  apply Bool.eqb_prop in H1; apply Pos.eqb_eq in H2; apply Z.eqb_eq in H3; congruence.
Qed.
Lemma denotes_parse x t : denotes x t = true -> parse_f64 t = Some x.
Proof.
  unfold denotes; destruct (parse_f64 t) as [y|]; [|discriminate]; intros H.
  apply same_sf_eq in H; f_equal; symmetry; apply B2SF_inj, H.
Qed.
(** The text [{}] of a double reads back as the double, so that the
    configuration files of C48 may be written with it, and the numbers of the
    log are those of the run. *)
Theorem C48_displayed_numbers : faithful display_f64.
Proof.
  intros x; unfold display_f64; destruct x as [s|s| |s m e B]; try apply parse_show_f64.
  set (l := map _ _); destruct (find _ l) as [t|] eqn:F; [|apply parse_show_f64].
  apply find_some in F; apply denotes_parse, F.
Qed.
Theorem display_f64_injective x y : display_f64 x = display_f64 y -> x = y.
Proof.
  intros E; pose proof (C48_displayed_numbers x) as H; rewrite E, C48_displayed_numbers in H.
  injection H as ->; reflexivity.
Qed.
Print Assumptions C48_displayed_numbers.

(** ** C52 *)

(** The accepted texts and the methods they denote. *)
Theorem C52_texts node info t : attr node "resolution_method" = Some t ->
  forall m, parse_resolution_method node info = Parsed m <-> In (t, m) method_texts.
Proof.
  intros A m; rewrite method_iff; unfold says; split.
  - intros (t' & A' & H); rewrite A in A'; injection A' as ->; exact H.
  - intros H; exists t; split; assumption.
Qed.
(** Distinct texts denote distinct methods, and every method has a text. *)
Theorem C52_texts_identify : 
  (forall t m t' m', In (t, m) method_texts -> In (t', m') method_texts -> (t = t' <-> m = m')) /\
  (forall m, exists t, In (t, m) method_texts).
Proof.
  split.
  - intros t m t' m' H H'; cbn [In method_texts] in H, H'.
    repeat destruct H as [H|H]; try contradiction; injection H as <- <-;
      repeat destruct H' as [H'|H']; try contradiction; injection H' as <- <-;
      split; intros E; try reflexivity; discriminate E.
  - intros m; exists (text_of method_eq_dec method_texts m); apply method_text.
Qed.
Theorem C52_nodes node node' info t t' m m' :
  attr node "resolution_method" = Some t -> attr node' "resolution_method" = Some t' ->
  parse_resolution_method node info = Parsed m -> parse_resolution_method node' info = Parsed m' ->
  (t = t' <-> m = m').
Proof.
  intros A A' P P'; apply (C52_texts _ _ _ A) in P; apply (C52_texts _ _ _ A') in P'.
  apply C52_texts_identify; assumption.
Qed.
(** The text in the log does not tell the update of the jacobian from the update
    of its inverse. *)
Theorem C52_log_refuted :
  ~ (forall m m', display_method m = display_method m' -> m = m').
Proof.
  intros H; specialize (H (QuasiNewton (JacobianUpdate BroydenFirstMethod))
                          (QuasiNewton (InverseJacobianUpdate BroydenFirstMethod)) eq_refl).
  discriminate H.
Qed.
Definition swapped (m : resolution_method) : resolution_method :=
  match m with
  | QuasiNewton (JacobianUpdate u) => QuasiNewton (InverseJacobianUpdate u)
  | QuasiNewton (InverseJacobianUpdate u) => QuasiNewton (JacobianUpdate u)
  | _ => m
  end.
(** Nothing else is lost. *)
Theorem C52_log_partial m m' :
  display_method m = display_method m' <-> m = m' \/ m = swapped m'.
Proof.
  split.
  - destruct m as [|[|[]|[]]], m' as [|[|[]|[]]]; intros H; try discriminate H; auto.
  - intros [->| ->]; [reflexivity|]; destruct m' as [|[|u|u]]; reflexivity.
Qed.
(** The example of the documentation of the crate (xml_parser/mod.rs) is no
    text of the list. *)
Theorem C52_documented_text_refuted : ~ exists m, In ("NewtonRaphson", m) method_texts.
Proof. intros [m H]; cbn [In method_texts] in H; repeat destruct H as [H|H]; try contradiction; discriminate H. Qed.
Example C52_case :
  parse_resolution_method (Element "solver" [("resolution_method", "GRST2_INV")] []) ""
    = Parsed (QuasiNewton (InverseJacobianUpdate GreenstadtSecondMethod)) /\
  display_method (QuasiNewton (InverseJacobianUpdate GreenstadtSecondMethod))
    = "Quasi Newton: Jacobian matrix behavior: Jacobian matrix approximatedGreenstadt Second Method".
Proof. split; reflexivity. Qed.
Print Assumptions C52_nodes.
Print Assumptions C52_log_partial.

(** ** C53 *)

Lemma prefix_inj p a b : p ++ a = p ++ b -> a = b.
Proof. induction p as [|c p IH]; cbn [append]; [auto|intros H; injection H as H; auto]. Qed.

Section Errors.
Context {EI EU : Type} (si : EI -> string) (su : EU -> string).
Let text := display_solver_error si su.

(** The class of an error, and the text the user gave to the cause. *)
Inductive class := CNonConvergence | CInitial | CInaccurateModel | CUnusableModel
  | CInaccurateJacobian | CUnusableJacobian | CSingularJacobian | CFinal.
Definition class_of (e : solver_error EI EU) : class * string :=
  match e with
  | NonConvergenceError => (CNonConvergence, "")
  | ModelInitialEvaluationError t => (CInitial, t)
  | ModelEvaluationError (InaccurateValuesError i) => (CInaccurateModel, si i)
  | ModelEvaluationError (UnusableValuesError u) => (CUnusableModel, su u)
  | JacobianError (InvalidJacobianError (InaccurateValuesError i)) => (CInaccurateJacobian, si i)
  | JacobianError (InvalidJacobianError (UnusableValuesError u)) => (CUnusableJacobian, su u)
  | JacobianError InvalidJacobianInverseError => (CSingularJacobian, "")
  | FinalEvaluationError => (CFinal, "")
  end.

(** The text tells the variant (and those of the wrapped errors) and the text of
    the cause. *)
Theorem C53_identifies e e' : text e = text e' <-> class_of e = class_of e'.
Proof.
  unfold text; split.
  - destruct e as [|t|[i|u]|[[i|u]|]|], e' as [|t'|[i'|u']|[[i'|u']|]|];
      cbn [display_solver_error display_model_error display_internal_error class_of];
      intros H; try discriminate H; try reflexivity; f_equal;
      repeat (apply prefix_inj in H); exact H.
  - destruct e as [|t|[i|u]|[[i|u]|]|], e' as [|t'|[i'|u']|[[i'|u']|]|];
      cbn [class_of]; intros H; try discriminate H; try reflexivity; injection H as H;
      cbn [display_solver_error display_model_error display_internal_error]; rewrite H; reflexivity.
Qed.
(** When the user's texts tell their errors apart, the text tells all. *)
Theorem C53_injective : (forall i i', si i = si i' -> i = i') -> (forall u u', su u = su u' -> u = u') ->
  forall e e', text e = text e' -> e = e'.
Proof.
  intros I U e e' H; apply C53_identifies in H; revert H.
  destruct e as [|t|[i|u]|[[i|u]|]|], e' as [|t'|[i'|u']|[[i'|u']|]|]; cbn [class_of];
    intros H; try discriminate H; try reflexivity; injection H as H;
    first [apply I in H|apply U in H|idtac]; rewrite H; reflexivity.
Qed.

(** The text ends with the text of the wrapped model error, itself ended by the
    user's. *)
Definition ends_with (s t : string) : Prop := exists p, s = p ++ t.
Definition wrapped (e : solver_error EI EU) : option (model_error EI EU) :=
  match e with
  | ModelEvaluationError x | JacobianError (InvalidJacobianError x) => Some x
  | _ => None
  end.
Definition cause (x : model_error EI EU) : string :=
  match x with InaccurateValuesError i => si i | UnusableValuesError u => su u end.
Theorem C53_contains :
  (forall e x, wrapped e = Some x -> ends_with (text e) (display_model_error si su x)) /\
  (forall x, ends_with (display_model_error si su x) (cause x)) /\
  (forall t, ends_with (text (ModelInitialEvaluationError t)) t).
Proof.
  repeat split.
  - intros e x W; destruct e as [|t|y|[y|]|]; try discriminate W; injection W as <-.
    + exists "Model evaluation failed: "; reflexivity.
    + exists "Jacobian error: Invalid jacobian: "; reflexivity.
  - intros [i|u]; [exists "InaccurateValues Error: "|exists "UnusableValuesError Error: "]; reflexivity.
  - intros t; exists "Initial model evaluation failed: "; reflexivity.
Qed.

(** The texts themselves. *)
Theorem C53_texts :
  text NonConvergenceError = "Convergence not reached" /\
  (forall t, text (ModelInitialEvaluationError t) = "Initial model evaluation failed: " ++ t) /\
  (forall i, text (ModelEvaluationError (InaccurateValuesError i))
             = "Model evaluation failed: InaccurateValues Error: " ++ si i) /\
  (forall u, text (ModelEvaluationError (UnusableValuesError u))
             = "Model evaluation failed: UnusableValuesError Error: " ++ su u) /\
  (forall i, text (JacobianError (InvalidJacobianError (InaccurateValuesError i)))
             = "Jacobian error: Invalid jacobian: InaccurateValues Error: " ++ si i) /\
  (forall u, text (JacobianError (InvalidJacobianError (UnusableValuesError u)))
             = "Jacobian error: Invalid jacobian: UnusableValuesError Error: " ++ su u) /\
  text (JacobianError InvalidJacobianInverseError) = "Jacobian error: Non invertible jacobian" /\
  text FinalEvaluationError = "Final model evaluation failed".
Proof. repeat split. Qed.
End Errors.

(** In a run: when the first evaluation is unusable, the error is the initial
    one and its text ends with the user's text. *)
Theorem C53_initial {F St EI EU} {NF : Num F} {IF : Inverter F} (M : Model F St EI EU) rf s s1 u :
  evaluate M (set_iteratives M s (rf_initial_guess rf)) = Ret (s1, Err (UnusableValuesError u)) ->
  exists e, solve M rf s = Ret (rf, s1, Err e) /\
    fst (class_of (show_inaccurate M) (show_unusable M) e) = CInitial /\
    ends_with (display_solver_error (show_inaccurate M) (show_unusable M) e) (show_unusable M u).
Proof.
  intros E; exists (ModelInitialEvaluationError (show_unusable M u)); split; [|split; [reflexivity|]].
  - unfold solve; rewrite E; reflexivity.
  - eexists; reflexivity.
Qed.
Example C53_case :
  display_solver_error (fun s : string => s) (fun s : string => s)
    (JacobianError (InvalidJacobianError (UnusableValuesError "sqrt of -1")))
  = "Jacobian error: Invalid jacobian: UnusableValuesError Error: sqrt of -1" /\
  class_of (fun s : string => s) (fun s : string => s)
    (ModelInitialEvaluationError "Model evaluation failed: x")
  <> class_of (fun s => s) (fun s => s) (ModelEvaluationError (UnusableValuesError "x")).
Proof. split; [reflexivity|discriminate]. Qed.
Print Assumptions C53_identifies.
Print Assumptions C53_injective.
Print Assumptions C53_contains.
Print Assumptions C53_initial.
Print Assumptions C53_texts.
