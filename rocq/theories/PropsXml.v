(** C48 - C51: configuration files. *)
From Coq Require Import Ascii.
From Verif Require Import Base Num Residuals Iteratives Jacobian Solver F64 Text Xml.
Open Scope string_scope.

(** ** What a document says *)

(** The texts of the documentation (xml_file_jac.rs:38-48, mod.rs). *)
Definition method_texts : list (string * resolution_method) :=
  [("NR", NewtonRaphson); ("SN", QuasiNewton StationaryNewton);
   ("BROY1", QuasiNewton (JacobianUpdate BroydenFirstMethod));
   ("BROY2", QuasiNewton (JacobianUpdate BroydenSecondMethod));
   ("GRST1", QuasiNewton (JacobianUpdate GreenstadtFirstMethod));
   ("GRST2", QuasiNewton (JacobianUpdate GreenstadtSecondMethod));
   ("BROY1_INV", QuasiNewton (InverseJacobianUpdate BroydenFirstMethod));
   ("BROY2_INV", QuasiNewton (InverseJacobianUpdate BroydenSecondMethod));
   ("GRST1_INV", QuasiNewton (InverseJacobianUpdate GreenstadtFirstMethod));
   ("GRST2_INV", QuasiNewton (InverseJacobianUpdate GreenstadtSecondMethod))].
Definition norm_texts : list (string * norm_method) := [("Abs", Abs); ("Rel", Rel); ("Adapt", Adapt)].
Definition perturbation_texts : list (string * perturbation_method) := [("Max", PMax); ("Sum", PSum)].

(** Attributes as a partial map; those of a child are completed by those of its
    parent. *)
Definition attributes := string -> option string.
Definition completed (child parent : element) : attributes :=
  fun k => match attr child k with Some t => Some t | None => attr parent k end.

Definition says_float (own : attributes) (k : string) (v : f64) : Prop :=
  exists t, own k = Some t /\ parse_f64 t = Some v.
Definition says_size (own : attributes) (k : string) (n : nat) : Prop :=
  exists t, own k = Some t /\ parse_usize t = Some n.
Definition says {A} (texts : list (string * A)) (own : attributes) (k : string) (a : A) : Prop :=
  exists t, own k = Some t /\ In (t, a) texts.

Definition says_limits (own : attributes) (p : iterative_params f64) : Prop :=
  says_float own "min_value" (min_value p) /\ says_float own "max_value" (max_value p) /\
  says_float own "max_step_abs" (max_step_abs p) /\ says_float own "max_step_rel" (max_step_rel p) /\
  nleb (max_step_abs p) n0 = false /\ nleb (max_step_rel p) n0 = false /\
  nleb (max_value p) (min_value p) = false.
Definition says_limits_fd (own : attributes) (p : iterative_params_fd f64) : Prop :=
  says_limits own (fd_params p) /\
  says_float own "dx_abs" (fd_dx_abs p) /\ says_float own "dx_rel" (fd_dx_rel p) /\
  says perturbation_texts own "perturbation_method" (fd_method p) /\
  nleb (fd_dx_abs p) n0 = false /\ nleb (fd_dx_rel p) n0 = false.
Definition says_residual (own : attributes) (r : residual_config) : Prop :=
  says norm_texts own "stopping_criteria" (rc_stopping r) /\
  says norm_texts own "update_method" (rc_update r).

Definition says_solver (own : attributes) (p : solver_parameters f64) : Prop :=
  says_size own "problem_size" (sp_problem_size p) /\ says_size own "max_iter" (sp_max_iter p) /\
  says_float own "tolerance" (sp_tolerance p) /\
  says method_texts own "resolution_method" (sp_resolution_method p) /\
  match own "damping" with
  | None => sp_damping p = false
  | Some t => In (t, sp_damping p) [("true", true); ("false", false)]
  end.

(** The section [node]: defaults of its own, one child per entry, numbered. *)
Definition says_section {A} (one : attributes -> A -> Prop) (child_name : string) (node : element)
  (l : list A) : Prop :=
  (exists d, one (attr node) d) /\ length (el_children node) = length l /\
  forall i c a, nth_error (el_children node) i = Some c -> nth_error l i = Some a ->
    el_name c = child_name /\ says_size (attr c) "id" i /\ one (completed c node) a.

Definition says_configuration {A} (one : attributes -> A -> Prop) (root : element)
  (c : configuration A) : Prop :=
  el_name root = "nrf" /\
  exists s i r rest, el_children root = s :: i :: r :: rest /\
    el_name s = "solver" /\ el_name i = "iteratives" /\ el_name r = "residuals" /\
    says_solver (attr s) (cf_parameters c) /\
    says_section one "iterative" i (cf_iteratives c) /\
    (exists rs, says_section says_residual "residual" r rs /\
       cf_stopping c = map rc_stopping rs /\ cf_update c = map rc_update rs) /\
    sp_problem_size (cf_parameters c) = length (cf_iteratives c) /\
    sp_problem_size (cf_parameters c) = length (cf_stopping c).

(** ** The parser returns exactly what the document says *)

Lemma required_iff {A} (o : option A) r a : required o r = Parsed a <-> o = Some a.
Proof. destruct o; cbn; split; congruence. Qed.
Lemma pbind_iff {A B} (x : parsed A) (f : A -> parsed B) b :
  pbind x f = Parsed b <-> exists a, x = Parsed a /\ f a = Parsed b.
Proof.
  destruct x as [a|r]; cbn; split.
  - intros H; exists a; auto.
  - intros (a' & E & H); injection E as <-; exact H.
  - discriminate.
  - intros (a' & E & _); discriminate.
Qed.

Lemma int_iff node k info n : parse_int_attribute node k info = Parsed n <-> says_size (attr node) k n.
Proof.
  unfold parse_int_attribute, says_size; rewrite pbind_iff; split.
  - intros (t & H1 & H2); apply required_iff in H1; apply required_iff in H2; eauto.
  - intros (t & H1 & H2); exists t; rewrite !required_iff; auto.
Qed.
Lemma float_iff node k info v : parse_float_attribute node k info = Parsed v <-> says_float (attr node) k v.
Proof.
  unfold parse_float_attribute, says_float; rewrite pbind_iff; split.
  - intros (t & H1 & H2); apply required_iff in H1; apply required_iff in H2; eauto.
  - intros (t & H1 & H2); exists t; rewrite !required_iff; auto.
Qed.
Lemma float_default_iff node parent k info d v : says_float (attr parent) k d ->
  (parse_float_attribute_with_default node d k info = Parsed v <-> says_float (completed node parent) k v).
Proof.
  intros (td & D1 & D2); unfold parse_float_attribute_with_default, says_float, completed.
  destruct (attr node k) as [t|]; [rewrite required_iff|]; split.
  - eauto.
  - intros (t' & E & H); injection E as <-; exact H.
  - intros H; injection H as <-; eauto.
  - intros (t' & E & H); rewrite D1 in E; injection E as <-; rewrite D2 in H; congruence.
Qed.

(** Tables of texts: a text is matched by its own row only. *)
Definition distinct_texts {A} (l : list (string * A)) : Prop := NoDup (map fst l).

Lemma method_iff node info m :
  parse_resolution_method node info = Parsed m <-> says method_texts (attr node) "resolution_method" m.
Proof.
  unfold parse_resolution_method, says; rewrite pbind_iff; split.
  - intros (t & H1 & H2); apply required_iff in H1; exists t; split; [exact H1|]; revert H2.
    repeat match goal with
      | |- match ?x with EmptyString => _ | String _ _ => _ end = _ -> _ =>
          destruct x as [|[[] [] [] [] [] [] [] []] x]; try discriminate
      end; intros H2; injection H2 as <-; cbn; tauto.
  - intros (t & H1 & H2); exists t; split; [apply required_iff; exact H1|].
    cbn [In method_texts] in H2.
    repeat match goal with H : _ \/ _ |- _ => destruct H as [H|H] end; try contradiction;
      injection H2 as <- <-; reflexivity.
Qed.
Lemma norm_of_iff t k info m : normalization_of t k info = Parsed m <-> In (t, m) norm_texts.
Proof.
  unfold normalization_of; split.
  - repeat match goal with
      | |- match ?x with EmptyString => _ | String _ _ => _ end = _ -> _ =>
          destruct x as [|[[] [] [] [] [] [] [] []] x]; try discriminate
      end; intros H2; injection H2 as <-; cbn; tauto.
  - cbn [In norm_texts]; intros H.
    repeat match goal with H : _ \/ _ |- _ => destruct H as [H|H] end; try contradiction;
      injection H as <- <-; reflexivity.
Qed.
Lemma perturbation_of_iff t info m : perturbation_of t info = Parsed m <-> In (t, m) perturbation_texts.
Proof.
  unfold perturbation_of; split.
  - repeat match goal with
      | |- match ?x with EmptyString => _ | String _ _ => _ end = _ -> _ =>
          destruct x as [|[[] [] [] [] [] [] [] []] x]; try discriminate
      end; intros H2; injection H2 as <-; cbn; tauto.
  - cbn [In perturbation_texts]; intros H.
    repeat match goal with H : _ \/ _ |- _ => destruct H as [H|H] end; try contradiction;
      injection H as <- <-; reflexivity.
Qed.

Lemma limits_new_iff a r lo hi (p : iterative_params f64) :
  checked (iterative_params_new a r lo hi) = Parsed p <->
  p = mkIterativeParams a r lo hi /\ nleb a n0 = false /\ nleb r n0 = false /\ nleb hi lo = false.
Proof.
  unfold iterative_params_new, ngeb; split.
  - destruct (nleb a n0), (nleb r n0), (nleb hi lo); cbn; intros H; try discriminate H.
    injection H as <-; auto.
  - intros (-> & -> & -> & ->); reflexivity.
Qed.
Lemma extend_iff (p : iterative_params f64) da dr m q :
  checked (iterative_params_fd_extend p da dr m) = Parsed q <->
  q = mkIterativeParamsFD p m da dr /\ nleb da n0 = false /\ nleb dr n0 = false.
Proof.
  unfold iterative_params_fd_extend; split.
  - destruct (nleb da n0), (nleb dr n0); cbn; intros H; try discriminate H.
    injection H as <-; auto.
  - intros (-> & -> & ->); reflexivity.
Qed.

Lemma jac_node_iff node info p : parse_iterative_jac_node node info = Parsed p <-> says_limits (attr node) p.
Proof.
  unfold parse_iterative_jac_node, says_limits; split.
  - intros H; apply pbind_iff in H; destruct H as (lo & H1 & H); apply pbind_iff in H;
      destruct H as (hi & H2 & H); apply pbind_iff in H; destruct H as (a & H3 & H);
      apply pbind_iff in H; destruct H as (r & H4 & H); apply limits_new_iff in H.
    destruct H as (-> & H5 & H6 & H7); apply float_iff in H1, H2, H3, H4; auto 10.
  - intros (H1 & H2 & H3 & H4 & H5 & H6 & H7).
    apply pbind_iff; exists (min_value p); split; [apply float_iff; assumption|].
    apply pbind_iff; exists (max_value p); split; [apply float_iff; assumption|].
    apply pbind_iff; exists (max_step_abs p); split; [apply float_iff; assumption|].
    apply pbind_iff; exists (max_step_rel p); split; [apply float_iff; assumption|].
    apply limits_new_iff; destruct p; auto.
Qed.
Lemma jac_child_iff node parent info d p : says_limits (attr parent) d ->
  (parse_iterative_jac_node_with_default node d info = Parsed p <->
   says_limits (completed node parent) p).
Proof.
  intros (D1 & D2 & D3 & D4 & _); unfold parse_iterative_jac_node_with_default, says_limits; split.
  - intros H; apply pbind_iff in H; destruct H as (lo & H1 & H); apply pbind_iff in H;
      destruct H as (hi & H2 & H); apply pbind_iff in H; destruct H as (a & H3 & H);
      apply pbind_iff in H; destruct H as (r & H4 & H); apply limits_new_iff in H.
    destruct H as (-> & H5 & H6 & H7).
    apply (float_default_iff _ _ _ _ _ _ D1) in H1; apply (float_default_iff _ _ _ _ _ _ D2) in H2.
    apply (float_default_iff _ _ _ _ _ _ D3) in H3; apply (float_default_iff _ _ _ _ _ _ D4) in H4.
    auto 10.
  - intros (H1 & H2 & H3 & H4 & H5 & H6 & H7).
    apply pbind_iff; exists (min_value p); split; [apply (float_default_iff _ parent); assumption|].
    apply pbind_iff; exists (max_value p); split; [apply (float_default_iff _ parent); assumption|].
    apply pbind_iff; exists (max_step_abs p); split; [apply (float_default_iff _ parent); assumption|].
    apply pbind_iff; exists (max_step_rel p); split; [apply (float_default_iff _ parent); assumption|].
    apply limits_new_iff; destruct p; auto.
Qed.

Lemma perturbation_iff node info m :
  parse_perturbation_method node info = Parsed m <->
  says perturbation_texts (attr node) "perturbation_method" m.
Proof.
  unfold parse_perturbation_method, says; rewrite pbind_iff; split.
  - intros (t & H1 & H2); apply required_iff in H1; apply perturbation_of_iff in H2; eauto.
  - intros (t & H1 & H2); exists t; rewrite required_iff, perturbation_of_iff; auto.
Qed.

(** Texts determine what they denote. *)
Lemma perturbation_texts_fun t m m' :
  In (t, m) perturbation_texts -> In (t, m') perturbation_texts -> m = m'.
Proof.
  intros H H'; apply (perturbation_of_iff t "" m) in H; apply (perturbation_of_iff t "" m') in H'; congruence.
Qed.
Lemma norm_texts_fun t m m' : In (t, m) norm_texts -> In (t, m') norm_texts -> m = m'.
Proof. intros H H'; apply (norm_of_iff t "" "" m) in H; apply (norm_of_iff t "" "" m') in H'; congruence. Qed.

Lemma perturbation_default_iff node parent info d m :
  says perturbation_texts (attr parent) "perturbation_method" d ->
  (parse_perturbation_method_with_default node d info = Parsed m <->
   says perturbation_texts (completed node parent) "perturbation_method" m).
Proof.
  intros (td & D1 & D2); unfold parse_perturbation_method_with_default, says, completed.
  destruct (attr node "perturbation_method") as [t|]; [rewrite perturbation_of_iff|]; split.
  - eauto.
  - intros (t' & E & H); injection E as <-; exact H.
  - intros H; injection H as <-; eauto.
  - intros (t' & E & H); rewrite D1 in E; injection E as <-; f_equal; eapply perturbation_texts_fun; eauto.
Qed.

Lemma fd_node_iff node info p :
  parse_iterative_fd_node node info = Parsed p <-> says_limits_fd (attr node) p.
Proof.
  unfold parse_iterative_fd_node, says_limits_fd; split.
  - intros H; apply pbind_iff in H; destruct H as (q & H1 & H); apply pbind_iff in H;
      destruct H as (da & H2 & H); apply pbind_iff in H; destruct H as (dr & H3 & H);
      apply pbind_iff in H; destruct H as (m & H4 & H); apply extend_iff in H.
    destruct H as (-> & H5 & H6); apply jac_node_iff in H1; apply float_iff in H2, H3.
    apply perturbation_iff in H4; auto 10.
  - intros (H1 & H2 & H3 & H4 & H5 & H6).
    apply pbind_iff; exists (fd_params p); split; [apply jac_node_iff; assumption|].
    apply pbind_iff; exists (fd_dx_abs p); split; [apply float_iff; assumption|].
    apply pbind_iff; exists (fd_dx_rel p); split; [apply float_iff; assumption|].
    apply pbind_iff; exists (fd_method p); split; [apply perturbation_iff; assumption|].
    apply extend_iff; destruct p; auto.
Qed.
Lemma fd_child_iff node parent info d p : says_limits_fd (attr parent) d ->
  (parse_iterative_fd_node_with_default node d info = Parsed p <->
   says_limits_fd (completed node parent) p).
Proof.
  intros (D0 & D1 & D2 & D3 & _); unfold parse_iterative_fd_node_with_default, says_limits_fd; split.
  - intros H; apply pbind_iff in H; destruct H as (q & H1 & H); apply pbind_iff in H;
      destruct H as (da & H2 & H); apply pbind_iff in H; destruct H as (dr & H3 & H);
      apply pbind_iff in H; destruct H as (m & H4 & H); apply extend_iff in H.
    destruct H as (-> & H5 & H6); apply (jac_child_iff _ parent _ _ _ D0) in H1.
    apply (float_default_iff _ _ _ _ _ _ D1) in H2; apply (float_default_iff _ _ _ _ _ _ D2) in H3.
    apply (perturbation_default_iff _ _ _ _ _ D3) in H4; auto 10.
  - intros (H1 & H2 & H3 & H4 & H5 & H6).
    apply pbind_iff; exists (fd_params p); split; [apply (jac_child_iff _ parent); assumption|].
    apply pbind_iff; exists (fd_dx_abs p); split; [apply (float_default_iff _ parent); assumption|].
    apply pbind_iff; exists (fd_dx_rel p); split; [apply (float_default_iff _ parent); assumption|].
    apply pbind_iff; exists (fd_method p); split; [apply (perturbation_default_iff _ parent); assumption|].
    apply extend_iff; destruct p; auto.
Qed.

Lemma norm_iff node k info m :
  parse_normalization_method_attribute node k info = Parsed m <-> says norm_texts (attr node) k m.
Proof.
  unfold parse_normalization_method_attribute, says; rewrite pbind_iff; split.
  - intros (t & H1 & H2); apply required_iff in H1; apply norm_of_iff in H2; eauto.
  - intros (t & H1 & H2); exists t; rewrite required_iff, norm_of_iff; auto.
Qed.
Lemma norm_default_iff node parent k info d m : says norm_texts (attr parent) k d ->
  (parse_normalization_method_attribute_with_default node d k info = Parsed m <->
   says norm_texts (completed node parent) k m).
Proof.
  intros (td & D1 & D2); unfold parse_normalization_method_attribute_with_default, says, completed.
  destruct (attr node k) as [t|]; [rewrite norm_of_iff|]; split.
  - eauto.
  - intros (t' & E & H); injection E as <-; exact H.
  - intros H; injection H as <-; eauto.
  - intros (t' & E & H); rewrite D1 in E; injection E as <-; f_equal; eapply norm_texts_fun; eauto.
Qed.
Lemma residual_node_iff node info r :
  parse_residual_node node info = Parsed r <-> says_residual (attr node) r.
Proof.
  unfold parse_residual_node, says_residual; split.
  - intros H; apply pbind_iff in H; destruct H as (a & H1 & H); apply pbind_iff in H;
      destruct H as (b & H2 & H); injection H as <-; apply norm_iff in H1, H2; auto.
  - intros (H1 & H2); apply pbind_iff; exists (rc_stopping r); split; [apply norm_iff, H1|].
    apply pbind_iff; exists (rc_update r); split; [apply norm_iff, H2|destruct r; reflexivity].
Qed.
Lemma residual_child_iff node parent info d r : says_residual (attr parent) d ->
  (parse_residual_node_with_default node d info = Parsed r <-> says_residual (completed node parent) r).
Proof.
  intros (D1 & D2); unfold parse_residual_node_with_default, says_residual; split.
  - intros H; apply pbind_iff in H; destruct H as (a & H1 & H); apply pbind_iff in H;
      destruct H as (b & H2 & H); injection H as <-.
    apply (norm_default_iff _ _ _ _ _ _ D1) in H1; apply (norm_default_iff _ _ _ _ _ _ D2) in H2; auto.
  - intros (H1 & H2); apply pbind_iff; exists (rc_stopping r); split;
      [apply (norm_default_iff _ parent); assumption|].
    apply pbind_iff; exists (rc_update r); split;
      [apply (norm_default_iff _ parent); assumption|destruct r; reflexivity].
Qed.

Lemma id_iff node k info i : parse_id node k info = Parsed i <-> i = k /\ says_size (attr node) "id" k.
Proof.
  unfold parse_id; rewrite pbind_iff; split.
  - intros (n & H1 & H2); apply int_iff in H1; destruct (Nat.eqb k n) eqn:E; [|discriminate].
    apply Nat.eqb_eq in E; injection H2 as <-; subst n; auto.
  - intros (-> & H); exists k; rewrite int_iff, Nat.eqb_refl; auto.
Qed.

Lemma children_iff {A} (one : attributes -> A -> Prop) parent parse
  (H : forall c info a, parse c info = Parsed a <-> one (completed c parent) a)
  wrong name id_info prefix : forall l k r,
  parse_children wrong name id_info parse prefix k l = Parsed r <->
  length l = length r /\
  forall i c a, nth_error l i = Some c -> nth_error r i = Some a ->
    el_name c = name /\ says_size (attr c) "id" (k + i) /\ one (completed c parent) a.
Proof.
  induction l as [|c l IH]; intros k r; cbn [parse_children].
  - split.
    + intros E; injection E as <-; split; [reflexivity|]; intros [|i] c a E; discriminate E.
    + intros [E _]; destruct r; [reflexivity|discriminate].
  - split.
    + intros E; apply pbind_iff in E; destruct E as (u & E1 & E).
      destruct (string_dec (el_name c) name) as [N|]; [|discriminate].
      apply pbind_iff in E; destruct E as (i & E2 & E); apply id_iff in E2; destruct E2 as [-> E2].
      apply pbind_iff in E; destruct E as (a & E3 & E); apply H in E3.
      apply pbind_iff in E; destruct E as (r' & E4 & E); injection E as <-.
      apply IH in E4; destruct E4 as [L4 E4]; split; [cbn; congruence|].
      intros [|i] c' a' Hc Ha; cbn in Hc, Ha.
      * injection Hc as <-; injection Ha as <-; rewrite Nat.add_0_r; auto.
      * rewrite Nat.add_succ_r; exact (E4 i c' a' Hc Ha).
    + intros [L E]; destruct r as [|a r]; [discriminate|].
      destruct (E 0%nat c a eq_refl eq_refl) as (N & I & O); rewrite Nat.add_0_r in I.
      apply pbind_iff; exists tt; split.
      { destruct (string_dec (el_name c) name); [reflexivity|contradiction]. }
      apply pbind_iff; exists k; split; [apply id_iff; auto|].
      apply pbind_iff; exists a; split; [apply H, O|].
      apply pbind_iff; exists r; split; [|reflexivity].
      apply IH; split; [injection L as L; exact L|].
      intros i c' a' Hc Ha; specialize (E (S i) c' a' Hc Ha); rewrite Nat.add_succ_r in E; exact E.
Qed.

Lemma section_iff {A} (one : attributes -> A -> Prop) node (default : string -> parsed A) child
  (HD : forall info d, default info = Parsed d <-> one (attr node) d)
  (HC : forall d c info a, one (attr node) d ->
     (child c d info = Parsed a <-> one (completed c node) a))
  wrong name id_info prefix info l :
  pbind (default info) (fun d => parse_children wrong name id_info (fun c i => child c d i) prefix 0
                                   (el_children node)) = Parsed l <->
  says_section one name node l.
Proof.
  rewrite pbind_iff; unfold says_section; split.
  - intros (d & H1 & H2); apply HD in H1; split; [eauto|].
    apply (children_iff one node) in H2; [|intros; apply HC, H1]; exact H2.
  - intros ((d & H1) & H2); exists d; split; [apply HD, H1|].
    apply (children_iff one node); [intros; apply HC, H1|exact H2].
Qed.

Lemma solver_iff node p : parse_solver_node node = Parsed p <-> says_solver (attr node) p.
Proof.
  unfold parse_solver_node, says_solver; split.
  - intros H; apply pbind_iff in H; destruct H as (n & H1 & H); apply pbind_iff in H;
      destruct H as (mi & H2 & H); apply pbind_iff in H; destruct H as (tol & H3 & H);
      apply pbind_iff in H; destruct H as (m & H4 & H); apply pbind_iff in H;
      destruct H as (d & H5 & H); injection H as <-; cbn.
    apply int_iff in H1, H2; apply float_iff in H3; apply method_iff in H4.
    do 4 (split; [assumption|]); destruct (attr node "damping") as [t|]; [|congruence].
    apply required_iff in H5; unfold parse_bool in H5.
    destruct (string_dec t "true") as [->|]; [injection H5 as <-; cbn; tauto|].
    destruct (string_dec t "false") as [->|]; [injection H5 as <-; cbn; tauto|discriminate].
  - intros (H1 & H2 & H3 & H4 & H5).
    apply pbind_iff; exists (sp_problem_size p); split; [apply int_iff, H1|].
    apply pbind_iff; exists (sp_max_iter p); split; [apply int_iff, H2|].
    apply pbind_iff; exists (sp_tolerance p); split; [apply float_iff, H3|].
    apply pbind_iff; exists (sp_resolution_method p); split; [apply method_iff, H4|].
    apply pbind_iff; exists (sp_damping p); split; [|destruct p; reflexivity].
    destruct (attr node "damping") as [t|]; [|congruence].
    apply required_iff; destruct H5 as [H5|[H5|[]]]; injection H5 as <- <-; reflexivity.
Qed.

Lemma name_iff node name : check_node_name_and_panic node name = Parsed tt <-> el_name node = name.
Proof.
  unfold check_node_name_and_panic; destruct (string_dec (el_name node) name); split; try congruence.
Qed.

Lemma residuals_iff node su : parse_residuals_node node = Parsed su <->
  exists rs, says_section says_residual "residual" node rs /\ su = (map rc_stopping rs, map rc_update rs).
Proof.
  unfold parse_residuals_node; split.
  - intros H; apply pbind_iff in H; destruct H as (d & H1 & H).
    apply pbind_iff in H; destruct H as (rs & H2 & H).
    exists rs; split; [|injection H as <-; reflexivity].
    apply (section_iff says_residual node (parse_residual_node node) parse_residual_node_with_default
      (fun info d => residual_node_iff node info d)
      (fun d c info a O => residual_child_iff c node info d a O)
      WrongResidualNode "residual" "residual_node" "residual node id = " "residuals node" rs).
    apply pbind_iff; eauto.
  - intros (rs & H & ->).
    apply (section_iff says_residual node (parse_residual_node node) parse_residual_node_with_default
      (fun info d => residual_node_iff node info d)
      (fun d c info a O => residual_child_iff c node info d a O)
      WrongResidualNode "residual" "residual_node" "residual node id = " "residuals node" rs) in H.
    apply pbind_iff in H; destruct H as (d & H1 & H2).
    apply pbind_iff; exists d; split; [exact H1|].
    apply pbind_iff; exists rs; split; [exact H2|reflexivity].
Qed.

Lemma root_iff {A} (one : attributes -> A -> Prop) parse root (c : configuration A)
  (HP : forall node l, parse node = Parsed l <-> says_section one "iterative" node l) :
  parse_root_node parse root = Parsed c <-> says_configuration one root c.
Proof.
  unfold parse_root_node, says_configuration; split.
  - intros H; apply pbind_iff in H; destruct H as (u & H1 & H).
    destruct (string_dec (el_name root) "nrf") as [N|]; [|discriminate]; split; [exact N|].
    destruct (el_children root) as [|s [|i [|r rest]]]; cbn [next_node pbind] in H;
      try discriminate H.
    1: { repeat (apply pbind_iff in H; destruct H as (? & ? & H)); discriminate H. }
    1: { repeat (apply pbind_iff in H; destruct H as (? & ? & H)); discriminate H. }
    apply pbind_iff in H; destruct H as ([] & H2 & H); apply name_iff in H2.
    apply pbind_iff in H; destruct H as (p & H3 & H); apply solver_iff in H3.
    apply pbind_iff in H; destruct H as ([] & H4 & H); apply name_iff in H4.
    apply pbind_iff in H; destruct H as (l & H5 & H); apply HP in H5.
    apply pbind_iff in H; destruct H as ([] & H6 & H); apply name_iff in H6.
    apply pbind_iff in H; destruct H as (su & H7 & H); apply residuals_iff in H7.
    destruct H7 as (rs & H7 & ->).
    destruct (Nat.eqb (sp_problem_size p) (length l)) eqn:L1; [|discriminate H].
    destruct (Nat.eqb (sp_problem_size p) (length (map rc_stopping rs))) eqn:L2; [|discriminate H].
    apply Nat.eqb_eq in L1, L2; injection H as <-; cbn [cf_parameters cf_iteratives cf_stopping cf_update].
    exists s, i, r, rest; repeat (split; [assumption || reflexivity|]).
    split; [exists rs; auto|auto].
  - intros (N & s & i & r & rest & E & H2 & H4 & H6 & H3 & H5 & (rs & H7 & E1 & E2) & L1 & L2).
    apply pbind_iff; exists tt; split.
    { destruct (string_dec (el_name root) "nrf"); [reflexivity|contradiction]. }
    rewrite E; cbn [next_node pbind].
    apply pbind_iff; exists tt; split; [apply name_iff, H2|].
    apply pbind_iff; exists (cf_parameters c); split; [apply solver_iff, H3|].
    apply pbind_iff; exists tt; split; [apply name_iff, H4|].
    apply pbind_iff; exists (cf_iteratives c); split; [apply HP, H5|].
    apply pbind_iff; exists tt; split; [apply name_iff, H6|].
    apply pbind_iff; exists (cf_stopping c, cf_update c); split.
    { apply residuals_iff; exists rs; rewrite E1, E2; auto. }
    rewrite <- L1, <- L2, Nat.eqb_refl; destruct c; reflexivity.
Qed.

(** A configuration is returned exactly when the document says so. *)
Theorem fd_document : forall root c,
  parse_root_node_fd root = Parsed c <-> says_configuration says_limits_fd root c.
Proof.
  intros root c; apply root_iff; intros node l.
  apply (section_iff says_limits_fd node (parse_iterative_fd_node node) parse_iterative_fd_node_with_default
    (fun info d => fd_node_iff node info d) (fun d c info a O => fd_child_iff c node info d a O)).
Qed.
Theorem jac_document : forall root c,
  parse_root_node_jac root = Parsed c <-> says_configuration says_limits root c.
Proof.
  intros root c; apply root_iff; intros node l.
  apply (section_iff says_limits node (parse_iterative_jac_node node) parse_iterative_jac_node_with_default
    (fun info d => jac_node_iff node info d) (fun d c info a O => jac_child_iff c node info d a O)).
Qed.

(** ** C48: files round-trip *)

(** Any way of writing numbers that is read back. *)
Definition faithful (text : f64 -> string) : Prop := forall v, parse_f64 (text v) = Some v.

Definition text_of {A} (eq_dec : forall a b : A, {a = b} + {a <> b}) (table : list (string * A))
  (a : A) : string :=
  match find (fun row => if eq_dec (snd row) a then true else false) table with
  | Some row => fst row
  | None => ""
  end.
Definition method_eq_dec (a b : resolution_method) : {a = b} + {a <> b}.
Proof. repeat decide equality. Defined.
Definition norm_eq_dec (a b : norm_method) : {a = b} + {a <> b}.
Proof. decide equality. Defined.
Definition perturbation_eq_dec (a b : perturbation_method) : {a = b} + {a <> b}.
Proof. decide equality. Defined.

Definition write_limits (text : f64 -> string) (p : iterative_params f64) : list (string * string) :=
  [("min_value", text (min_value p)); ("max_value", text (max_value p));
   ("max_step_abs", text (max_step_abs p)); ("max_step_rel", text (max_step_rel p))].
Definition write_limits_fd (text : f64 -> string) (p : iterative_params_fd f64) : list (string * string) :=
  (write_limits text (fd_params p) ++
  [("dx_abs", text (fd_dx_abs p)); ("dx_rel", text (fd_dx_rel p));
   ("perturbation_method", text_of perturbation_eq_dec perturbation_texts (fd_method p))])%list.
Definition write_residual (r : residual_config) : list (string * string) :=
  [("stopping_criteria", text_of norm_eq_dec norm_texts (rc_stopping r));
   ("update_method", text_of norm_eq_dec norm_texts (rc_update r))].
Definition write_solver (text : f64 -> string) (p : solver_parameters f64) : element :=
  Element "solver"
    [("problem_size", show_usize (sp_problem_size p)); ("max_iter", show_usize (sp_max_iter p));
     ("tolerance", text (sp_tolerance p)); ("damping", show_bool (sp_damping p));
     ("resolution_method", text_of method_eq_dec method_texts (sp_resolution_method p))] [].

(** With [compact], a child omits the attributes whose text is the parent's. *)
Definition own_attributes (compact : bool) (parent l : list (string * string)) : list (string * string) :=
  if compact
  then filter (fun kt => match assoc parent (fst kt) with
                         | Some t => if string_dec t (snd kt) then false else true
                         | None => true
                         end) l
  else l.
Fixpoint write_children {A} (compact : bool) (name : string) (write : A -> list (string * string))
  (d : A) (k : nat) (l : list A) : list element :=
  match l with
  | [] => []
  | a :: l' =>
      Element name (("id", show_usize k) :: own_attributes compact (write d) (write a)) [] ::
      write_children compact name write d (S k) l'
  end.
Definition write_section {A} (compact : bool) (section name : string) (write : A -> list (string * string))
  (d : A) (l : list A) : element :=
  Element section (write d) (write_children compact name write d 0 l).
Definition write_configuration {A} (compact : bool) (text : f64 -> string)
  (write : A -> list (string * string)) (d : A) (dr : residual_config) (c : configuration A) : element :=
  Element "nrf" []
    [write_solver text (cf_parameters c);
     write_section compact "iteratives" "iterative" write d (cf_iteratives c);
     write_section compact "residuals" "residual" write_residual dr
       (map (fun su => mkResidualConfig (fst su) (snd su)) (combine (cf_stopping c) (cf_update c)))].

(** The limits that the constructors accept (iterative_var.rs:60-90,
    iterative_var_fd.rs:60-110). *)
Definition valid_limits (p : iterative_params f64) : Prop :=
  nleb (max_step_abs p) n0 = false /\ nleb (max_step_rel p) n0 = false /\
  nleb (max_value p) (min_value p) = false.
Definition valid_limits_fd (p : iterative_params_fd f64) : Prop :=
  valid_limits (fd_params p) /\ nleb (fd_dx_abs p) n0 = false /\ nleb (fd_dx_rel p) n0 = false.
Definition valid_configuration {A} (valid : A -> Prop) (c : configuration A) : Prop :=
  Forall valid (cf_iteratives c) /\
  length (cf_iteratives c) = sp_problem_size (cf_parameters c) /\
  length (cf_stopping c) = sp_problem_size (cf_parameters c) /\
  length (cf_update c) = sp_problem_size (cf_parameters c) /\
  (N.of_nat (sp_problem_size (cf_parameters c)) <= usize_max)%N /\
  (N.of_nat (sp_max_iter (cf_parameters c)) <= usize_max)%N.

Lemma text_of_in {A} (D : forall a b : A, {a = b} + {a <> b}) table (a : A) :
  In a (map snd table) -> In (text_of D table a, a) table.
Proof.
  unfold text_of; induction table as [|[t b] table IH]; cbn [map In snd find]; [contradiction|].
  destruct (D b a) as [->|N]; [left; reflexivity|].
  intros [H|H]; [contradiction|]; right; exact (IH H).
Qed.

Lemma assoc_filter k f l t : assoc l k = Some t -> f (k, t) = true -> assoc (filter f l) k = Some t.
Proof.
  induction l as [|[k' t'] l IH]; cbn [assoc filter]; [discriminate|].
  destruct (string_dec k' k) as [->|N]; intros E F.
  - injection E as ->; rewrite F; cbn [assoc].
    destruct (string_dec k k); [reflexivity|contradiction].
  - destruct (f (k', t')); [cbn [assoc]; destruct (string_dec k' k); [contradiction|]|]; auto.
Qed.
Lemma assoc_filter_none k f l : NoDup (map fst l) -> forall t, assoc l k = Some t -> f (k, t) = false ->
  assoc (filter f l) k = None.
Proof.
  intros ND t.
  assert (X : ~ In k (map fst l) -> assoc (filter f l) k = None).
  { clear ND; induction l as [|[k' t'] l IH]; cbn; [reflexivity|]; intros H.
    destruct (f (k', t')); cbn [assoc]; [destruct (string_dec k' k); [exfalso; tauto|]|]; apply IH; tauto. }
  clear X; induction l as [|[k' t'] l IH]; cbn [assoc filter]; [discriminate|].
  apply NoDup_cons_iff in ND; destruct ND as [ND1 ND2].
  destruct (string_dec k' k) as [->|N]; intros E F.
  - injection E as ->; rewrite F; clear - ND1.
    induction l as [|[k' t'] l IH]; cbn in *; [reflexivity|].
    destruct (f (k', t')); cbn [assoc]; [destruct (string_dec k' k); [exfalso; tauto|]|]; apply IH; tauto.
  - destruct (f (k', t')); [cbn [assoc]; destruct (string_dec k' k); [contradiction|]|]; auto.
Qed.

(** A child written with or without its redundant attributes reads the same. *)
Lemma own_complete compact name node sect parent l k :
  k <> "id" -> NoDup (map fst l) -> assoc l k <> None ->
  completed (Element name (("id", node) :: own_attributes compact parent l) [])
            (Element sect parent []) k = assoc l k.
Proof.
  intros NI ND H; unfold completed, attr; cbn [el_attributes assoc].
  destruct (string_dec "id" k) as [E|_]; [congruence|].
  destruct (assoc l k) as [t|] eqn:E; [|contradiction]; unfold own_attributes.
  destruct compact; [|rewrite E; reflexivity].
  destruct (match assoc parent k with Some t0 => if string_dec t0 t then false else true | None => true end)
    eqn:F.
  - rewrite (assoc_filter k _ l t E F); reflexivity.
  - rewrite (assoc_filter_none k _ l ND t E F).
    destruct (assoc parent k) as [t0|]; [|discriminate F].
    destruct (string_dec t0 t); [congruence|discriminate F].
Qed.
Lemma completed_parent c name1 name2 atts l1 l2 k :
  completed c (Element name1 atts l1) k = completed c (Element name2 atts l2) k.
Proof. reflexivity. Qed.

Lemma says_float_map own k v t : own k = Some t -> parse_f64 t = Some v -> says_float own k v.
Proof. intros; eexists; eauto. Qed.

(** [one] depends on a few keys only, and what was written says what it should. *)
Record writes {A} (one : attributes -> A -> Prop) (valid : A -> Prop)
  (write : A -> list (string * string)) : Prop := mkWrites {
  w_distinct : forall a, NoDup (map fst (write a));
  w_no_id : forall a, ~ In "id" (map fst (write a));
  w_keys : forall a b, map fst (write a) = map fst (write b);
  w_local : forall a own own', (forall k, In k (map fst (write a)) -> own k = own' k) ->
    one own a -> one own' a;
  w_says : forall a, valid a -> one (fun k => assoc (write a) k) a
}.

Lemma assoc_in k (l : list (string * string)) : In k (map fst l) -> assoc l k <> None.
Proof.
  induction l as [|[k' t] l IH]; cbn; [contradiction|].
  destruct (string_dec k' k); [congruence|]; intros [|]; [contradiction|auto].
Qed.

Lemma written_children {A} compact name (write : A -> list (string * string)) d : forall l k i c a,
  nth_error (write_children compact name write d k l) i = Some c -> nth_error l i = Some a ->
  c = Element name (("id", show_usize (k + i)) :: own_attributes compact (write d) (write a)) [].
Proof.
  induction l as [|b l IH]; intros k [|i] c a; cbn [write_children nth_error]; try discriminate.
  - rewrite Nat.add_0_r; congruence.
  - intros H1 H2; rewrite Nat.add_succ_r; exact (IH (S k) i c a H1 H2).
Qed.
Lemma written_length {A} compact name (write : A -> list (string * string)) d : forall l k,
  length (write_children compact name write d k l) = length l.
Proof. induction l as [|b l IH]; intros k; cbn [write_children length]; [reflexivity|now rewrite IH]. Qed.

Lemma written_section {A} one valid write (W : @writes A one valid write) compact sect name d l :
  valid d -> Forall valid l -> (N.of_nat (length l) <= usize_max)%N ->
  says_section one name (write_section compact sect name write d l) l.
Proof.
  intros VD VL HL; split; [|split].
  - exists d; exact (w_says _ _ _ W d VD).
  - apply written_length.
  - intros i c a Hc Ha; pose proof (written_children _ _ _ _ _ _ _ _ _ Hc Ha) as ->.
    assert (V : valid a) by (rewrite Forall_forall in VL; apply VL; eapply nth_error_In; eauto).
    assert (Hi : (i < length l)%nat) by (apply nth_error_Some; congruence).
    split; [reflexivity|split].
    + exists (show_usize i); split; [reflexivity|]; apply parse_show_usize; lia.
    + apply (w_local _ _ _ W a (fun k => assoc (write a) k)); [|exact (w_says _ _ _ W a V)].
      intros k Hk; symmetry; unfold write_section.
      rewrite (completed_parent _ sect sect _ _ []).
      apply own_complete; [|apply W|apply assoc_in, Hk].
      intros ->; exact (w_no_id _ _ _ W a Hk).
Qed.

Ltac in_keys := cbn; tauto.
Ltac distinct := repeat (constructor; [cbn; intuition discriminate|]); constructor.

Lemma writes_limits text : faithful text -> writes says_limits valid_limits (write_limits text).
Proof.
  intros T; constructor.
  - intros a; distinct.
  - intros a; cbn; intuition discriminate.
  - reflexivity.
  - intros a own own' H; unfold says_limits, says_float.
    rewrite !H by in_keys; auto.
  - intros a V; unfold says_limits.
    repeat (split; [eexists; split; [reflexivity|apply T]|]); exact V.
Qed.
Lemma perturbation_text m : In (text_of perturbation_eq_dec perturbation_texts m, m) perturbation_texts.
Proof. apply text_of_in; destruct m; in_keys. Qed.
Lemma norm_text m : In (text_of norm_eq_dec norm_texts m, m) norm_texts.
Proof. apply text_of_in; destruct m; in_keys. Qed.
Lemma method_text m : In (text_of method_eq_dec method_texts m, m) method_texts.
Proof. apply text_of_in; destruct m as [|[| [] | []]]; in_keys. Qed.

Lemma writes_limits_fd text : faithful text -> writes says_limits_fd valid_limits_fd (write_limits_fd text).
Proof.
  intros T; constructor.
  - intros a; distinct.
  - intros a; cbn; intuition discriminate.
  - reflexivity.
  - intros a own own' H; unfold says_limits_fd, says_limits, says_float, says.
    rewrite !H by in_keys; auto.
  - intros a (V1 & V2 & V3); unfold says_limits_fd, says_limits.
    split; [repeat (split; [eexists; split; [reflexivity|apply T]|]); exact V1|].
    do 2 (split; [eexists; split; [reflexivity|apply T]|]).
    split; [eexists; split; [reflexivity|apply perturbation_text]|auto].
Qed.
Lemma writes_residual : writes says_residual (fun _ => True) write_residual.
Proof.
  constructor.
  - intros a; distinct.
  - intros a; cbn; intuition discriminate.
  - reflexivity.
  - intros a own own' H; unfold says_residual, says; rewrite !H by in_keys; auto.
  - intros a _; split; eexists; (split; [reflexivity|apply norm_text]).
Qed.

Lemma written_configuration {A} one valid write (W : @writes A one valid write) compact text d dr c :
  faithful text -> valid d -> valid_configuration valid c ->
  says_configuration one (write_configuration compact text write d dr c) c.
Proof.
  intros T VD (VL & L1 & L2 & L3 & B1 & B2); split; [reflexivity|].
  do 4 eexists; split; [reflexivity|]; do 3 (split; [reflexivity|]); split; [|split; [|split]].
  - unfold says_solver; do 2 (split; [eexists; split; [reflexivity|apply parse_show_usize; assumption]|]).
    split; [eexists; split; [reflexivity|apply T]|].
    split; [eexists; split; [reflexivity|apply method_text]|].
    cbn; destruct (sp_damping (cf_parameters c)); cbn; tauto.
  - apply (written_section one valid write W); [exact VD|exact VL|rewrite L1; exact B1].
  - eexists; split; [apply (written_section _ _ _ writes_residual)|].
    + exact I.
    + apply Forall_forall; intros; exact I.
    + rewrite map_length, combine_length, L2, L3, Nat.min_id; exact B1.
    + rewrite !map_map; cbn [rc_stopping rc_update].
      assert (E : length (cf_stopping c) = length (cf_update c)) by congruence.
      clear - E; revert E; generalize (cf_update c); induction (cf_stopping c) as [|s l IH];
        intros [|u l']; cbn; intros E; try discriminate; [auto|].
      injection E as E; destruct (IH l' E) as [<- <-]; auto.
  - split; congruence.
Qed.

Theorem C48_finite_differences : forall compact text d dr c,
  faithful text -> valid_limits_fd d -> valid_configuration valid_limits_fd c ->
  parse_root_node_fd (write_configuration compact text (write_limits_fd text) d dr c) = Parsed c.
Proof.
  intros compact text d dr c T VD V; apply fd_document.
  apply (written_configuration says_limits_fd valid_limits_fd); auto using writes_limits_fd.
Qed.
Print Assumptions C48_finite_differences.
Theorem C48_jacobian : forall compact text d dr c,
  faithful text -> valid_limits d -> valid_configuration valid_limits c ->
  parse_root_node_jac (write_configuration compact text (write_limits text) d dr c) = Parsed c.
Proof.
  intros compact text d dr c T VD V; apply jac_document.
  apply (written_configuration says_limits valid_limits); auto using writes_limits.
Qed.
Print Assumptions C48_jacobian.

(** Exact decimal expansions are such a way of writing numbers. *)
Theorem C48_numbers : faithful show_f64.
Proof. exact parse_show_f64. Qed.
Print Assumptions C48_numbers.

(** ** C49: defaults and overrides *)

(** A number of a child: its own when present, else the parent's. *)
Definition own_or_parent (child parent : element) (k : string) (v : f64) : Prop :=
  match attr child k with
  | Some t => parse_f64 t = Some v
  | None => exists t, attr parent k = Some t /\ parse_f64 t = Some v
  end.
Definition own_or_parent_text {A} (texts : list (string * A)) (child parent : element) (k : string) (v : A)
  : Prop :=
  match attr child k with
  | Some t => In (t, v) texts
  | None => exists t, attr parent k = Some t /\ In (t, v) texts
  end.
Lemma own_or_parent_iff child parent k v :
  says_float (completed child parent) k v -> own_or_parent child parent k v.
Proof.
  unfold says_float, completed, own_or_parent; intros (t & H); destruct (attr child k); [|eauto].
  destruct H as [E H]; injection E as ->; exact H.
Qed.
Lemma own_or_parent_text_iff {A} (texts : list (string * A)) child parent k v :
  says texts (completed child parent) k v -> own_or_parent_text texts child parent k v.
Proof.
  unfold says, completed, own_or_parent_text; intros (t & H); destruct (attr child k); [|eauto].
  destruct H as [E H]; injection E as ->; exact H.
Qed.

Definition limits_from (child parent : element) (p : iterative_params f64) : Prop :=
  own_or_parent child parent "min_value" (min_value p) /\
  own_or_parent child parent "max_value" (max_value p) /\
  own_or_parent child parent "max_step_abs" (max_step_abs p) /\
  own_or_parent child parent "max_step_rel" (max_step_rel p).
Definition limits_fd_from (child parent : element) (p : iterative_params_fd f64) : Prop :=
  limits_from child parent (fd_params p) /\
  own_or_parent child parent "dx_abs" (fd_dx_abs p) /\
  own_or_parent child parent "dx_rel" (fd_dx_rel p) /\
  own_or_parent_text perturbation_texts child parent "perturbation_method" (fd_method p).
Definition residual_from (child parent : element) (stopping update : norm_method) : Prop :=
  own_or_parent_text norm_texts child parent "stopping_criteria" stopping /\
  own_or_parent_text norm_texts child parent "update_method" update.

Lemma limits_from_says child parent p : says_limits (completed child parent) p -> limits_from child parent p.
Proof. intros (H1 & H2 & H3 & H4 & _); repeat split; apply own_or_parent_iff; assumption. Qed.
Lemma limits_fd_from_says child parent p :
  says_limits_fd (completed child parent) p -> limits_fd_from child parent p.
Proof.
  intros (H1 & H2 & H3 & H4 & _); split; [apply limits_from_says, H1|].
  repeat split; [apply own_or_parent_iff| apply own_or_parent_iff|apply own_or_parent_text_iff]; assumption.
Qed.

(** The [i]-th entries come from the [i]-th children. *)
Definition from_children {A} (from : element -> element -> A -> Prop) (root : element)
  (c : configuration A) : Prop :=
  exists s it re rest, el_children root = s :: it :: re :: rest /\
    (attr s "damping" = None -> sp_damping (cf_parameters c) = false) /\
    (forall t, attr s "damping" = Some t ->
       t = "true" /\ sp_damping (cf_parameters c) = true \/
       t = "false" /\ sp_damping (cf_parameters c) = false) /\
    length (el_children it) = length (cf_iteratives c) /\
    (forall i child p, nth_error (el_children it) i = Some child ->
       nth_error (cf_iteratives c) i = Some p -> from child it p) /\
    length (el_children re) = length (cf_stopping c) /\
    length (el_children re) = length (cf_update c) /\
    (forall i child m u, nth_error (el_children re) i = Some child ->
       nth_error (cf_stopping c) i = Some m -> nth_error (cf_update c) i = Some u ->
       residual_from child re m u).

Lemma from_says {A} (one : attributes -> A -> Prop) (from : element -> element -> A -> Prop) root c
  (H : forall child parent p, one (completed child parent) p -> from child parent p) :
  says_configuration one root c -> from_children from root c.
Proof.
  intros (N & s & it & re & rest & E & _ & _ & _ & SO & (SD & L & SI) & (rs & (RD & LR & SR) & E1 & E2) & _).
  exists s, it, re, rest; split; [exact E|].
  destruct SO as (_ & _ & _ & _ & SO).
  split; [intros D; rewrite D in SO; exact SO|].
  split.
  { intros t D; rewrite D in SO; cbn in SO; destruct SO as [SO|[SO|[]]]; injection SO as <- <-; auto. }
  split; [exact L|]; split.
  { intros i child p H1 H2; apply H, (SI i child p H1 H2). }
  rewrite E1, E2, !map_length; do 2 (split; [exact LR|]).
  intros i child m u H1 H2 H3; rewrite nth_error_map in H2, H3.
  destruct (nth_error rs i) as [r|] eqn:H4; [|discriminate]; cbn in H2, H3.
  injection H2 as <-; injection H3 as <-.
  destruct (SR i child r H1 H4) as (_ & _ & R1 & R2); split; apply own_or_parent_text_iff; assumption.
Qed.

Theorem C49_finite_differences : forall root c,
  parse_root_node_fd root = Parsed c -> from_children limits_fd_from root c.
Proof.
  intros root c H; apply fd_document in H; revert H; apply from_says; exact limits_fd_from_says.
Qed.
Print Assumptions C49_finite_differences.
Theorem C49_jacobian : forall root c,
  parse_root_node_jac root = Parsed c -> from_children limits_from root c.
Proof.
  intros root c H; apply jac_document in H; revert H; apply from_says; exact limits_from_says.
Qed.
Print Assumptions C49_jacobian.

(** ** C50: malformed documents are rejected, and only those *)

Definition unreadable {A} (read : string -> option A) (own : attributes) (k : string) : Prop :=
  forall t v, own k = Some t -> read t <> Some v.
Definition unknown {A} (texts : list (string * A)) (own : attributes) (k : string) : Prop :=
  forall t v, own k = Some t -> ~ In (t, v) texts.

Definition numbers (fd : bool) : list string :=
  ["min_value"; "max_value"; "max_step_abs"; "max_step_rel"] ++ if fd then ["dx_abs"; "dx_rel"] else [].
Definition steps (fd : bool) : list string :=
  ["max_step_abs"; "max_step_rel"] ++ if fd then ["dx_abs"; "dx_rel"] else [].

Inductive bad_iterative (fd : bool) (own : attributes) : Prop :=
  | bad_number k : In k (numbers fd) -> unreadable parse_f64 own k -> bad_iterative fd own
  | bad_step k v : In k (steps fd) -> says_float own k v -> nleb v n0 = true -> bad_iterative fd own
  | bad_bounds lo hi : says_float own "min_value" lo -> says_float own "max_value" hi ->
      nleb hi lo = true -> bad_iterative fd own
  | bad_perturbation : fd = true -> unknown perturbation_texts own "perturbation_method" ->
      bad_iterative fd own.
Inductive bad_residual (own : attributes) : Prop :=
  | bad_norm k : In k ["stopping_criteria"; "update_method"] -> unknown norm_texts own k ->
      bad_residual own.
Inductive bad_solver (own : attributes) : Prop :=
  | bad_size k : In k ["problem_size"; "max_iter"] -> unreadable parse_usize own k -> bad_solver own
  | bad_tolerance : unreadable parse_f64 own "tolerance" -> bad_solver own
  | bad_method : unknown method_texts own "resolution_method" -> bad_solver own
  | bad_damping t : own "damping" = Some t -> t <> "true" -> t <> "false" -> bad_solver own.
Inductive bad_section (bad : attributes -> Prop) (name : string) (node : element) : Prop :=
  | bad_default : bad (attr node) -> bad_section bad name node
  | bad_child_name i c : nth_error (el_children node) i = Some c -> el_name c <> name ->
      bad_section bad name node
  | bad_id i c : nth_error (el_children node) i = Some c ->
      (forall t, attr c "id" = Some t -> parse_usize t <> Some i) -> bad_section bad name node
  | bad_child i c : nth_error (el_children node) i = Some c -> bad (completed c node) ->
      bad_section bad name node.
Inductive malformed (fd : bool) (root : element) : Prop :=
  | bad_root : el_name root <> "nrf" -> malformed fd root
  | bad_order i name : nth_error ["solver"; "iteratives"; "residuals"] i = Some name ->
      (forall e, nth_error (el_children root) i = Some e -> el_name e <> name) -> malformed fd root
  | bad_solver_node e : nth_error (el_children root) 0 = Some e -> bad_solver (attr e) -> malformed fd root
  | bad_iteratives e : nth_error (el_children root) 1 = Some e ->
      bad_section (bad_iterative fd) "iterative" e -> malformed fd root
  | bad_residuals e : nth_error (el_children root) 2 = Some e ->
      bad_section bad_residual "residual" e -> malformed fd root
  | bad_count s n i e : nth_error (el_children root) 0 = Some s -> says_size (attr s) "problem_size" n ->
      (i = 1 \/ i = 2)%nat -> nth_error (el_children root) i = Some e -> length (el_children e) <> n ->
      malformed fd root.

Lemma pbind_refused {A B} (x : parsed A) (f : A -> parsed B) r : pbind x f = Refused r ->
  x = Refused r \/ exists a, x = Parsed a /\ f a = Refused r.
Proof. destruct x; cbn; [right; eauto|left; congruence]. Qed.
Lemma required_refused {A} (o : option A) r r' : required o r = Refused r' -> o = None.
Proof. destruct o; [discriminate|reflexivity]. Qed.
Lemma int_refused node k info r : parse_int_attribute node k info = Refused r ->
  unreadable parse_usize (attr node) k.
Proof.
  unfold parse_int_attribute; intros H t v E; apply pbind_refused in H.
  destruct H as [H|(t' & H1 & H2)]; [apply required_refused in H; congruence|].
  apply required_iff in H1; apply required_refused in H2; congruence.
Qed.
Lemma float_refused node k info r : parse_float_attribute node k info = Refused r ->
  unreadable parse_f64 (attr node) k.
Proof.
  unfold parse_float_attribute; intros H t v E; apply pbind_refused in H.
  destruct H as [H|(t' & H1 & H2)]; [apply required_refused in H; congruence|].
  apply required_iff in H1; apply required_refused in H2; congruence.
Qed.
Lemma float_default_refused node parent d k info r : parse_float_attribute_with_default node d k info = Refused r ->
  unreadable parse_f64 (completed node parent) k.
Proof.
  unfold parse_float_attribute_with_default, completed; intros H t v E.
  destruct (attr node k) as [t'|]; [|discriminate].
  apply required_refused in H; congruence.
Qed.

Definition table_text_refused {A} (texts : list (string * A)) (f : string -> parsed A)
  (F : forall t a, f t = Parsed a <-> In (t, a) texts) t r : f t = Refused r -> forall a, ~ In (t, a) texts.
Proof. intros H a HI; apply F in HI; congruence. Qed.
Lemma perturbation_refused node info r : parse_perturbation_method node info = Refused r ->
  unknown perturbation_texts (attr node) "perturbation_method".
Proof.
  unfold parse_perturbation_method; intros H t v E; apply pbind_refused in H.
  destruct H as [H|(t' & H1 & H2)]; [apply required_refused in H; congruence|].
  apply required_iff in H1; rewrite <- (perturbation_of_iff _ info); congruence.
Qed.
Lemma perturbation_default_refused node parent d info r :
  parse_perturbation_method_with_default node d info = Refused r ->
  unknown perturbation_texts (completed node parent) "perturbation_method".
Proof.
  unfold parse_perturbation_method_with_default, completed; intros H t v E.
  destruct (attr node "perturbation_method") as [t'|]; [|discriminate].
  rewrite <- (perturbation_of_iff _ info); congruence.
Qed.
Lemma norm_refused node k info r : parse_normalization_method_attribute node k info = Refused r ->
  unknown norm_texts (attr node) k.
Proof.
  unfold parse_normalization_method_attribute; intros H t v E; apply pbind_refused in H.
  destruct H as [H|(t' & H1 & H2)]; [apply required_refused in H; congruence|].
  apply required_iff in H1; rewrite <- (norm_of_iff _ k info); congruence.
Qed.
Lemma norm_default_refused node parent d k info r :
  parse_normalization_method_attribute_with_default node d k info = Refused r ->
  unknown norm_texts (completed node parent) k.
Proof.
  unfold parse_normalization_method_attribute_with_default, completed; intros H t v E.
  destruct (attr node k) as [t'|]; [|discriminate].
  rewrite <- (norm_of_iff _ k info); congruence.
Qed.

Lemma limits_new_refused a r lo hi e : checked (@iterative_params_new f64 _ a r lo hi) = Refused e ->
  nleb a n0 = true \/ nleb r n0 = true \/ nleb hi lo = true.
Proof.
  unfold iterative_params_new, ngeb.
  destruct (nleb a n0), (nleb r n0), (nleb hi lo); cbn; auto; discriminate.
Qed.
Lemma extend_refused (p : iterative_params f64) a r m e :
  checked (iterative_params_fd_extend p a r m) = Refused e -> nleb a n0 = true \/ nleb r n0 = true.
Proof. unfold iterative_params_fd_extend; destruct (nleb a n0), (nleb r n0); cbn; auto; discriminate. Qed.

Ltac refused H := apply pbind_refused in H; destruct H as [H|(? & ? & H)].

Lemma jac_node_refused fd node info r : parse_iterative_jac_node node info = Refused r ->
  bad_iterative fd (attr node).
Proof.
  unfold parse_iterative_jac_node; intros H.
  refused H; [apply float_refused in H; refine (bad_number _ _ _ _ H); in_keys|].
  refused H; [apply float_refused in H; refine (bad_number _ _ _ _ H); in_keys|].
  refused H; [apply float_refused in H; refine (bad_number _ _ _ _ H); in_keys|].
  refused H; [apply float_refused in H; refine (bad_number _ _ _ _ H); in_keys|].
  repeat match goal with X : parse_float_attribute _ _ _ = Parsed _ |- _ => apply float_iff in X end.
  apply limits_new_refused in H; destruct H as [H|[H|H]].
  - eapply (bad_step _ _ "max_step_abs"); [in_keys|eassumption|exact H].
  - eapply (bad_step _ _ "max_step_rel"); [in_keys|eassumption|exact H].
  - eapply bad_bounds; eassumption.
Qed.
Lemma jac_child_refused fd node parent d info r : says_limits (attr parent) d ->
  parse_iterative_jac_node_with_default node d info = Refused r ->
  bad_iterative fd (completed node parent).
Proof.
  intros (D1 & D2 & D3 & D4 & _).
  unfold parse_iterative_jac_node_with_default; intros H.
  refused H; [apply (float_default_refused _ parent) in H; refine (bad_number _ _ _ _ H); in_keys|].
  refused H; [apply (float_default_refused _ parent) in H; refine (bad_number _ _ _ _ H); in_keys|].
  refused H; [apply (float_default_refused _ parent) in H; refine (bad_number _ _ _ _ H); in_keys|].
  refused H; [apply (float_default_refused _ parent) in H; refine (bad_number _ _ _ _ H); in_keys|].
  repeat match goal with X : parse_float_attribute_with_default _ _ ?k _ = Parsed _ |- _ =>
    apply (float_default_iff _ parent) in X; [|assumption] end.
  apply limits_new_refused in H; destruct H as [H|[H|H]].
  - eapply (bad_step _ _ "max_step_abs"); [in_keys|eassumption|exact H].
  - eapply (bad_step _ _ "max_step_rel"); [in_keys|eassumption|exact H].
  - eapply bad_bounds; eassumption.
Qed.
Lemma fd_node_refused node info r : parse_iterative_fd_node node info = Refused r ->
  bad_iterative true (attr node).
Proof.
  unfold parse_iterative_fd_node; intros H.
  refused H; [exact (jac_node_refused true _ _ _ H)|].
  refused H; [apply float_refused in H; refine (bad_number _ _ _ _ H); in_keys|].
  refused H; [apply float_refused in H; refine (bad_number _ _ _ _ H); in_keys|].
  refused H; [apply perturbation_refused in H; exact (bad_perturbation _ _ eq_refl H)|].
  repeat match goal with X : parse_float_attribute _ _ _ = Parsed _ |- _ => apply float_iff in X end.
  apply extend_refused in H; destruct H as [H|H].
  - eapply (bad_step _ _ "dx_abs"); [in_keys|eassumption|exact H].
  - eapply (bad_step _ _ "dx_rel"); [in_keys|eassumption|exact H].
Qed.
Lemma fd_child_refused node parent d info r : says_limits_fd (attr parent) d ->
  parse_iterative_fd_node_with_default node d info = Refused r ->
  bad_iterative true (completed node parent).
Proof.
  intros (D0 & D1 & D2 & D3 & _); unfold parse_iterative_fd_node_with_default; intros H.
  refused H; [exact (jac_child_refused true _ _ _ _ _ D0 H)|].
  refused H; [apply (float_default_refused _ parent) in H; refine (bad_number _ _ _ _ H); in_keys|].
  refused H; [apply (float_default_refused _ parent) in H; refine (bad_number _ _ _ _ H); in_keys|].
  refused H; [apply (perturbation_default_refused _ parent) in H; exact (bad_perturbation _ _ eq_refl H)|].
  repeat match goal with X : parse_float_attribute_with_default _ _ ?k _ = Parsed _ |- _ =>
    apply (float_default_iff _ parent) in X; [|assumption] end.
  apply extend_refused in H; destruct H as [H|H].
  - eapply (bad_step _ _ "dx_abs"); [in_keys|eassumption|exact H].
  - eapply (bad_step _ _ "dx_rel"); [in_keys|eassumption|exact H].
Qed.
Lemma residual_node_refused node info r : parse_residual_node node info = Refused r ->
  bad_residual (attr node).
Proof.
  unfold parse_residual_node; intros H.
  refused H; [apply norm_refused in H; refine (bad_norm _ _ _ H); in_keys|].
  refused H; [apply norm_refused in H; refine (bad_norm _ _ _ H); in_keys|discriminate].
Qed.
Lemma residual_child_refused node parent d info r : parse_residual_node_with_default node d info = Refused r ->
  bad_residual (completed node parent).
Proof.
  unfold parse_residual_node_with_default; intros H.
  refused H; [apply (norm_default_refused _ parent) in H; refine (bad_norm _ _ _ H); in_keys|].
  refused H; [apply (norm_default_refused _ parent) in H; refine (bad_norm _ _ _ H); in_keys|discriminate].
Qed.

Lemma children_refused {A} (bad : attributes -> Prop) node (one : element -> string -> parsed A)
  (H : forall c info r, one c info = Refused r -> bad (completed c node)) wrong name id_info prefix r :
  forall l k, (forall i c, nth_error l i = Some c -> nth_error (el_children node) (k + i) = Some c) ->
  parse_children wrong name id_info one prefix k l = Refused r -> bad_section bad name node.
Proof.
  induction l as [|c l IH]; intros k HN E; cbn [parse_children] in E; [discriminate|].
  pose proof (HN 0%nat c eq_refl) as H0; rewrite Nat.add_0_r in H0.
  refused E.
  { destruct (string_dec (el_name c) name) as [|N]; [discriminate|]; exact (bad_child_name _ _ _ k c H0 N). }
  refused E.
  { apply (bad_id _ _ _ k c H0); intros t Ht Hp.
    unfold parse_id in E; refused E; [exact (int_refused _ _ _ _ E t k Ht Hp)|].
    match goal with X : parse_int_attribute _ _ _ = Parsed ?n |- _ => apply int_iff in X;
      destruct X as (t' & X1 & X2); assert (k = n) by congruence; subst n end.
    rewrite Nat.eqb_refl in E; discriminate. }
  refused E; [exact (bad_child _ _ _ k c H0 (H _ _ _ E))|].
  refused E; [|discriminate].
  apply (IH (S k)) in E; [exact E|].
  intros i c' Hc; specialize (HN (S i) c' Hc); rewrite Nat.add_succ_r in HN; exact HN.
Qed.
Lemma section_refused {A} (bad : attributes -> Prop) (one : attributes -> A -> Prop) node
  (default : string -> parsed A) (child : element -> A -> string -> parsed A)
  (HD : forall info r, default info = Refused r -> bad (attr node))
  (HO : forall info d, default info = Parsed d -> one (attr node) d)
  (HC : forall d c info r, one (attr node) d -> child c d info = Refused r -> bad (completed c node))
  wrong name id_info prefix info r :
  pbind (default info) (fun d => parse_children wrong name id_info (fun c i => child c d i) prefix 0
                                   (el_children node)) = Refused r ->
  bad_section bad name node.
Proof.
  intros H; refused H; [exact (bad_default _ _ _ (HD _ _ H))|].
  revert H; apply children_refused; [|auto].
  intros c i r' E; eapply HC; [|exact E]; eapply HO; eassumption.
Qed.
Lemma solver_refused node r : parse_solver_node node = Refused r -> bad_solver (attr node).
Proof.
  unfold parse_solver_node; intros H.
  refused H; [apply int_refused in H; refine (bad_size _ _ _ H); in_keys|].
  refused H; [apply int_refused in H; refine (bad_size _ _ _ H); in_keys|].
  refused H; [apply float_refused in H; exact (bad_tolerance _ H)|].
  refused H.
  { apply bad_method; intros t m E HI.
    assert (X : parse_resolution_method node "solver node" = Parsed m) by (apply method_iff; exists t; auto).
    congruence. }
  refused H; [|discriminate].
  destruct (attr node "damping") as [t|] eqn:E; [|discriminate].
  apply required_refused in H; unfold parse_bool in H; apply (bad_damping _ t E).
  - intros ->; discriminate.
  - intros ->; discriminate.
Qed.

Lemma root_refused {A} fd (parse : element -> parsed (list A)) root r
  (HP : forall node l, parse node = Parsed l -> length l = length (el_children node))
  (HR : forall node r, parse node = Refused r -> bad_section (bad_iterative fd) "iterative" node) :
  parse_root_node parse root = Refused r -> malformed fd root.
Proof.
  unfold parse_root_node; intros H; refused H.
  { destruct (string_dec (el_name root) "nrf") as [|N]; [discriminate|]; exact (bad_root _ _ N). }
  destruct (el_children root) as [|s tree] eqn:E.
  { apply (bad_order _ _ 0 "solver" eq_refl); rewrite E; discriminate. }
  cbn [next_node pbind] in H; refused H.
  { apply (bad_order _ _ 0 "solver" eq_refl); rewrite E; cbn [nth_error]; intros e X; injection X as <-.
    intros X; apply name_iff in X; congruence. }
  refused H; [apply solver_refused in H; apply (bad_solver_node _ _ s); [rewrite E; reflexivity|exact H]|].
  destruct tree as [|i tree].
  { apply (bad_order _ _ 1 "iteratives" eq_refl); rewrite E; discriminate. }
  cbn [next_node pbind] in H; refused H.
  { apply (bad_order _ _ 1 "iteratives" eq_refl); rewrite E; cbn [nth_error]; intros e X; injection X as <-.
    intros X; apply name_iff in X; congruence. }
  refused H; [apply HR in H; apply (bad_iteratives _ _ i); [rewrite E; reflexivity|exact H]|].
  destruct tree as [|re tree].
  { apply (bad_order _ _ 2 "residuals" eq_refl); rewrite E; discriminate. }
  cbn [next_node pbind] in H; refused H.
  { apply (bad_order _ _ 2 "residuals" eq_refl); rewrite E; cbn [nth_error]; intros e X; injection X as <-.
    intros X; apply name_iff in X; congruence. }
  refused H.
  { apply (bad_residuals _ _ re); [rewrite E; reflexivity|].
    unfold parse_residuals_node in H; refused H; [exact (bad_default _ _ _ (residual_node_refused _ _ _ H))|].
    refused H; [|discriminate].
    revert H; apply children_refused; [|auto].
    intros c info r'; apply residual_child_refused. }
  match goal with X : parse_solver_node s = Parsed ?q |- _ => apply solver_iff in X; destruct X as (X & _) end.
  match goal with X : parse i = Parsed _ |- _ => apply HP in X; rename X into HL end.
  match goal with X : parse_residuals_node _ = Parsed _ |- _ => apply residuals_iff in X;
    destruct X as (rs & (_ & HLR & _) & ->) end.
  rewrite map_length in H.
  destruct (Nat.eqb (sp_problem_size _) (length _)) eqn:C1 in H; cbn [negb] in H.
  - destruct (Nat.eqb (sp_problem_size _) (length rs)) eqn:C2 in H; cbn [negb] in H; [discriminate|].
    apply Nat.eqb_neq in C2; eapply (bad_count _ _ s _ 2 re);
      [rewrite E; reflexivity|eassumption|auto|rewrite E; reflexivity|].
    congruence.
  - apply Nat.eqb_neq in C1; eapply (bad_count _ _ s _ 1 i);
      [rewrite E; reflexivity|eassumption|auto|rewrite E; reflexivity|].
    congruence.
Qed.

(** The converse: what is malformed says nothing. *)
Lemma says_float_fun own k v v' : says_float own k v -> says_float own k v' -> v = v'.
Proof. intros (t & E & H) (t' & E' & H'); congruence. Qed.
Lemma bad_limits_false (fd : bool) own p : says_limits own p ->
  (forall k, In k (if fd then ["dx_abs"; "dx_rel"] else @nil string) ->
     exists v, says_float own k v /\ nleb v n0 = false) ->
  (fd = true -> exists m, says perturbation_texts own "perturbation_method" m) ->
  ~ bad_iterative fd own.
Proof.
  intros (H1 & H2 & H3 & H4 & V1 & V2 & V3) HF HM.
  intros [k K U|k v K S V|lo hi S1 S2 V|F U].
  - assert (X : exists v, says_float own k v).
    { unfold numbers in K; apply in_app_or in K; destruct K as [K|K].
      - destruct K as [<-|[<-|[<-|[<-|[]]]]]; eauto.
      - destruct (HF k K) as (v & S & _); eauto. }
    destruct X as (v & t & E & P); exact (U t v E P).
  - assert (X : exists v, says_float own k v /\ nleb v n0 = false).
    { unfold steps in K; apply in_app_or in K; destruct K as [K|K]; [|exact (HF k K)].
      destruct K as [<-|[<-|[]]]; eauto. }
    destruct X as (v' & S' & V'); rewrite (says_float_fun _ _ _ _ S S') in V; congruence.
  - rewrite (says_float_fun _ _ _ _ S1 H1), (says_float_fun _ _ _ _ S2 H2) in V; congruence.
  - destruct (HM F) as (m & t & E & T); exact (U t m E T).
Qed.
Lemma good_jac own p : says_limits own p -> ~ bad_iterative false own.
Proof. intros H; apply (bad_limits_false false own p H); [intros k []|discriminate]. Qed.
Lemma good_fd own p : says_limits_fd own p -> ~ bad_iterative true own.
Proof.
  intros (H & H1 & H2 & H3 & V1 & V2); apply (bad_limits_false true own _ H); [|eauto].
  intros k [<-|[<-|[]]]; eauto.
Qed.
Lemma good_residual own r : says_residual own r -> ~ bad_residual own.
Proof.
  intros ((t1 & E1 & T1) & (t2 & E2 & T2)) [k K U]; destruct K as [<-|[<-|[]]].
  - exact (U _ _ E1 T1).
  - exact (U _ _ E2 T2).
Qed.
Lemma good_solver own p : says_solver own p -> ~ bad_solver own.
Proof.
  intros ((t1 & E1 & T1) & (t2 & E2 & T2) & (t3 & E3 & T3) & (t4 & E4 & T4) & D) [k K U|U|U|t E N1 N2].
  - destruct K as [<-|[<-|[]]]; [exact (U _ _ E1 T1)|exact (U _ _ E2 T2)].
  - exact (U _ _ E3 T3).
  - exact (U _ _ E4 T4).
  - rewrite E in D; destruct D as [D|[D|[]]]; congruence.
Qed.
Lemma good_section {A} (one : attributes -> A -> Prop) bad name node l
  (G : forall own a, one own a -> ~ bad own) :
  says_section one name node l -> ~ bad_section bad name node.
Proof.
  intros ((d & D) & L & S).
  assert (X : forall i c, nth_error (el_children node) i = Some c -> exists a,
    el_name c = name /\ says_size (attr c) "id" i /\ one (completed c node) a).
  { intros i c E; assert (Hi : (i < length l)%nat) by (rewrite <- L; apply nth_error_Some; congruence).
    destruct (nth_error l i) as [a|] eqn:Ha; [exists a; eauto|].
    apply nth_error_None in Ha; lia. }
  intros [B|i c E B|i c E B|i c E B].
  - exact (G _ _ D B).
  - destruct (X i c E) as (a & N & _); contradiction.
  - destruct (X i c E) as (a & _ & (t & T & P) & _); exact (B t T P).
  - destruct (X i c E) as (a & _ & _ & O); exact (G _ _ O B).
Qed.
Lemma good_configuration {A} fd (one : attributes -> A -> Prop) root c
  (G : forall own a, one own a -> ~ bad_iterative fd own) :
  says_configuration one root c -> ~ malformed fd root.
Proof.
  intros (N & s & i & re & rest & E & N1 & N2 & N3 & S & SI & (rs & SR & E1 & E2) & L1 & L2).
  intros [B|k name K B|e K B|e K B|e K B|s' n k e K1 K2 KK K3 B]; rewrite ?E in *; cbn [nth_error] in *.
  - contradiction.
  - destruct k as [|[|[|k]]]; cbn in K; try (destruct k; discriminate).
    + injection K as <-; exact (B s eq_refl N1).
    + injection K as <-; exact (B i eq_refl N2).
    + injection K as <-; exact (B re eq_refl N3).
  - injection K as <-; exact (good_solver _ _ S B).
  - injection K as <-; exact (good_section _ _ _ _ _ G SI B).
  - injection K as <-; exact (good_section _ _ _ _ _ good_residual SR B).
  - injection K1 as <-; destruct S as ((t & T & P) & _); destruct K2 as (t' & T' & P').
    assert (n = sp_problem_size (cf_parameters c)) by congruence; subst n.
    destruct SI as (_ & LI & _); destruct SR as (_ & LR & _).
    destruct KK as [->| ->]; cbn [nth_error] in K3; injection K3 as <-.
    + congruence.
    + rewrite E1, map_length in L2; congruence.
Qed.

(** Rejected exactly when malformed. *)
Theorem C50_finite_differences : forall root,
  (exists r, parse_root_node_fd root = Refused r) <-> malformed true root.
Proof.
  intros root; split.
  - intros (r & H); revert H; apply root_refused.
    + intros node l H.
      apply (section_iff says_limits_fd node (parse_iterative_fd_node node) parse_iterative_fd_node_with_default
        (fun info d => fd_node_iff node info d) (fun d c info a O => fd_child_iff c node info d a O)) in H.
      destruct H as (_ & H & _); auto.
    + intros node r'.
      apply (section_refused (bad_iterative true) says_limits_fd node (parse_iterative_fd_node node)
        parse_iterative_fd_node_with_default).
      * intros; eapply fd_node_refused; eassumption.
      * intros info d; apply fd_node_iff.
      * intros; eapply fd_child_refused; eassumption.
  - intros M; destruct (parse_root_node_fd root) as [c|r] eqn:E; [|eauto].
    apply fd_document in E; destruct (good_configuration true _ _ _ good_fd E M).
Qed.
Print Assumptions C50_finite_differences.
Theorem C50_jacobian : forall root,
  (exists r, parse_root_node_jac root = Refused r) <-> malformed false root.
Proof.
  intros root; split.
  - intros (r & H); revert H; apply root_refused.
    + intros node l H.
      apply (section_iff says_limits node (parse_iterative_jac_node node) parse_iterative_jac_node_with_default
        (fun info d => jac_node_iff node info d) (fun d c info a O => jac_child_iff c node info d a O)) in H.
      destruct H as (_ & H & _); auto.
    + intros node r'.
      apply (section_refused (bad_iterative false) says_limits node (parse_iterative_jac_node node)
        parse_iterative_jac_node_with_default).
      * intros; eapply jac_node_refused; eassumption.
      * intros info d; apply jac_node_iff.
      * intros; eapply jac_child_refused; eassumption.
  - intros M; destruct (parse_root_node_jac root) as [c|r] eqn:E; [|eauto].
    apply jac_document in E; destruct (good_configuration false _ _ _ good_jac E M).
Qed.
Print Assumptions C50_jacobian.

(** ** C51: a parsed configuration fits the solver *)

Lemma says_fits {A} one root (c : configuration A) (f : A -> iterative f64) guess :
  says_configuration one root c -> length guess = sp_problem_size (cf_parameters c) ->
  exists conf rf, residuals_config_new (cf_stopping c) (cf_update c) = Ret conf /\
    rootfinder_new (cf_parameters c) guess (map f (cf_iteratives c)) conf = Ret rf.
Proof.
  intros (_ & s & i & re & rest & _ & _ & _ & _ & _ & _ & (rs & _ & E1 & E2) & L1 & L2) G.
  eexists; unfold residuals_config_new, rootfinder_new, residuals_config_len.
  rewrite E1, E2, !map_length, Nat.eqb_refl; eexists; split; [reflexivity|].
  cbn [stopping_criterias]; rewrite E1, map_length in L2; rewrite map_length, G, <- L1, <- L2, !Nat.eqb_refl.
  reflexivity.
Qed.
Theorem C51_finite_differences : forall root c guess, parse_root_node_fd root = Parsed c ->
  length guess = sp_problem_size (cf_parameters c) ->
  exists conf rf, residuals_config_new (cf_stopping c) (cf_update c) = Ret conf /\
    rootfinder_new (cf_parameters c) guess (map iterative_of_params_fd (cf_iteratives c)) conf = Ret rf.
Proof. intros root c guess H; apply fd_document in H; revert H; apply says_fits. Qed.
Print Assumptions C51_finite_differences.
Theorem C51_jacobian : forall root c guess, parse_root_node_jac root = Parsed c ->
  length guess = sp_problem_size (cf_parameters c) ->
  exists conf rf, residuals_config_new (cf_stopping c) (cf_update c) = Ret conf /\
    rootfinder_new (cf_parameters c) guess (map iterative_of_params (cf_iteratives c)) conf = Ret rf.
Proof. intros root c guess H; apply jac_document in H; revert H; apply says_fits. Qed.
Print Assumptions C51_jacobian.
