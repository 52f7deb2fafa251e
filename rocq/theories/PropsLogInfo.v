(** C93: the log with the feature additional_log_info. *)
From Coq Require Import Ascii Lia.
From Verif Require Import Base Num Linalg Residuals Iteratives UserModel Jacobian Solver Trace F64 Tactics Samples
  FlowFacts LogFacts Text Display XmlText Xml Validation ValidationLog PropsDisplay PropsReading PropsShown LogInfo.
Open Scope string_scope.

Lemma app_assoc_s (a b c : string) : (a ++ b) ++ c = a ++ (b ++ c).
Proof. induction a as [|x a IH]; [reflexivity|]; cbn; rewrite IH; reflexivity. Qed.

(** Without the feature it is the log of Display.v. *)
Lemma without_feature show version its l :
  display_log_with show None version its l = display_log show version its l.
Proof.
  induction l as [|e l IH]; [reflexivity|]; cbn [display_log_with display_log]; rewrite IH.
  destruct e; try reflexivity.
  cbn [display_entry]; f_equal; unfold log_header; rewrite !app_assoc_s; reflexivity.
Qed.

(** ** The log of a run has one header, its first entry *)
Section Headed.
Context {F : Type} {NF : Num F} {IF : Inverter F}.
Context {St EI EU : Type} (M : Model F St EI EU).

Definition no_header (e : log_entry F) : Prop := match e with LHeader => False | _ => True end.
Definition headed (rf : rootfinder F) : Prop :=
  forall l, rf_log rf = Some l -> exists l', l = LHeader :: l' /\ Forall no_header l'.

Lemma headed_write rf e rf' : headed rf -> no_header e -> write_log rf e = Ret rf' -> headed rf'.
Proof.
  intros H N W; apply write_log_inv in W; destruct W as (l & L & ->).
  cbn; intros l0 E; injection E as <-; destruct (H l L) as (l' & -> & A).
  exists (l' ++ [e])%list; split; [reflexivity|]; apply Forall_app; auto.
Qed.
Lemma headed_when rf k rf' : headed rf -> (forall rf1, k = Ret rf1 -> headed rf1) ->
  when_debug rf k = Ret rf' -> headed rf'.
Proof.
  intros T H; unfold when_debug; destruct (rf_debug rf); [apply H|intros E; injection E as <-; exact T].
Qed.
Lemma headed_jac_to_log rf rf' : headed rf -> when_debug rf (jac_to_log rf) = Ret rf' -> headed rf'.
Proof.
  intros T; apply headed_when; [exact T|]; intros rf1; apply headed_write; [exact T|exact I].
Qed.
Lemma headed_compute_jac rf s rf' s' r : headed rf -> compute_jac M rf s = Ret (rf', s', r) -> headed rf'.
Proof. intros T H; apply compute_jac_inv in H; destruct H as (j & r0 & -> & _); exact T. Qed.
Lemma headed_approximate rf m rf' ok : headed rf -> approximate_step rf m = Ret (rf', ok) -> headed rf'.
Proof. intros T H; apply approximate_step_inv in H; destruct H as [j ->]; exact T. Qed.
Lemma headed_step rf s rf' s' r : headed rf -> compute_step M rf s = Ret (rf', s', r) -> headed rf'.
Proof.
  intros T H; unfold compute_step in H; destruct (sp_resolution_method (rf_parameters rf)) as [|m].
  - unfold compute_newton_raphson_step in H; minv1 H; minv1 H.
    match goal with X : when_debug _ _ = Ret ?z |- _ => assert (T2 : headed z);
      [eapply headed_jac_to_log; [|exact X]; eapply headed_compute_jac; eassumption|] end.
    destruct b; [minv1 H|]; injection H as <- _ _; exact T2.
  - unfold compute_quasi_newton_step in H; minv1 H.
    assert (T2 : headed a0).
    { unfold evaluate_jacobian_quasi_newton_step in E; destruct (jm_compute_at_next _).
      - minv1 E; minv1 E; injection E as <- _ _.
        eapply headed_jac_to_log; [|eassumption]; eapply headed_compute_jac; eassumption.
      - minv1 E.
        match goal with X : approximate_step _ _ = Ret (?a, _) |- _ =>
          assert (TA : headed a) by (eapply headed_approximate; eassumption) end.
        match type of E with (if ?b then _ else _) = _ => destruct b end.
        + minv1 E; injection E as <- _ _; eapply headed_jac_to_log; eassumption.
        + injection E as <- _ _; exact TA. }
    destruct b; [minv1 H|]; injection H as <- _ _; exact T2.
Qed.
Lemma headed_log_iteration rf s e rf' : headed rf -> iteration_to_log M rf s e = Ret rf' -> headed rf'.
Proof.
  intros T H; unfold iteration_to_log in H; minv1 H; eapply headed_write; [exact T| |exact H]; exact I.
Qed.
Lemma headed_finish rf s e cur prop rf' s' en : headed rf ->
  finish_update M rf s e cur prop = Ret (rf', s', en) -> headed rf'.
Proof.
  intros T H; unfold finish_update in H; minv1 H; minv1 H.
  match goal with X : when_debug _ _ = Ret ?z |- _ => assert (T1 : headed z) end.
  { eapply headed_when; [exact T| |eassumption]; intros rf1; apply headed_log_iteration; assumption. }
  minv1 H.
  match goal with X : (if _ then damping _ _ _ _ _ _ _ else _) = Ret (?z, _, _) |- _ => assert (T2 : headed z) end.
  { match goal with X : (if _ then damping _ _ _ _ _ _ _ else _) = _ |- _ => rename X into D end.
    destruct (sp_damping _); [|injection D as <- _ _; exact T1].
    unfold damping in D; minv1 D; [|injection D as <- _ _; exact T1].
    minv1 D.
    - minv1 D; injection D as <- _ _.
      eapply headed_when; [| |eassumption]; [exact T1|].
      intros rf1; apply headed_write; [exact T1|exact I].
    - minv1 D; minv1 D; minv1 D; minv1 D; minv1 D; injection D as <- _ _.
      eapply headed_when; [exact T1| |eassumption]; intros rf1 W; unfold damping_to_log in W; minv1 W.
      eapply headed_write; [exact T1| |exact W]; exact I. }
  minv1 H; injection H as <- _ _.
  match goal with X : store_steps _ _ _ _ _ _ = _ |- _ => apply store_steps_inv in X;
    destruct X as [->|(ds & dy & _ & _ & ->)] end; exact T2.
Qed.
Lemma headed_iteration rf s rf' s' r : headed rf -> iteration M rf s = Ret (rf', s', r) -> headed rf'.
Proof.
  intros T H; apply iteration_inv in H; destruct H as (rf1 & s1 & r1 & Hs & H).
  assert (T1 : headed rf1) by (eapply headed_step; [|exact Hs]; exact T).
  destruct r1 as [g|e]; [|destruct H as (-> & _ & _); exact T1].
  apply update_model_inv in H; destruct H as (e & s2 & r2 & _ & V & [(x & _ & -> & _)|(en & _ & U & H)]);
    [exact T1|].
  eapply headed_finish; [|exact H]; exact T1.
Qed.
Lemma headed_iterate fuel : forall rf s me rf' s' r, headed rf ->
  iterate M fuel rf s me = Ret (rf', s', r) -> headed rf'.
Proof.
  induction fuel as [|fuel IH]; intros rf s me rf' s' r T H; cbn [iterate] in H; [discriminate H|].
  minv1 H; [|injection H as <- _ _; exact T].
  minv1 H.
  match goal with X : iteration _ _ _ = Ret (?z, _, _) |- _ => assert (T1 : headed z) by (eapply headed_iteration; eassumption) end.
  destruct b; [eapply IH; eassumption|injection H as <- _ _; exact T1].
Qed.

(** Whatever was solved before, and whatever the result. *)
Lemma headed_solve rf s rf' s' r : headed rf -> solve M rf s = Ret (rf', s', r) -> headed rf'.
Proof.
  intros T H; apply solve_inv in H; destruct H as (s1 & r1 & V & [(x & _ & -> & _)|(U & H)]); [exact T|].
  unfold solve_from in H; minv1 H; minv1 H; minv1 H; injection H as <- _ _.
  eapply headed_iterate; [|eassumption].
  eapply headed_when; [exact T| |eassumption]; intros rf1 W; minv1 W.
  eapply headed_log_iteration; [|exact W].
  match goal with X : parameters_to_log _ = Ret _ |- _ => unfold parameters_to_log in X; minv1 X; minv1 X;
    eapply headed_write; [exact T| |exact X]; exact I end.
Qed.
Lemma headed_activated rf : headed (activate_debug rf).
Proof. intros l E; injection E as <-; exists []; split; [reflexivity|constructor]. Qed.
End Headed.

(** ** Lines *)

(** The lines of a file: the texts between the newlines. *)
Fixpoint lines (s : string) : list string :=
  match s with
  | EmptyString => []
  | String c s' =>
      if Ascii.eqb c "010" then "" :: lines s'
      else match lines s' with
           | [] => [String c ""]
           | l :: ls => String c l :: ls
           end
  end.
Definition one_line (s : string) : Prop := free is_nl s = true.

Lemma lines_one (a s : string) : one_line a -> lines (a ++ nl ++ s) = a :: lines s.
Proof.
  unfold one_line; induction a as [|c a IH]; intros O; [reflexivity|].
  cbn [free all] in O; apply andb_prop in O; destruct O as [O1 O2].
  cbn [append lines]; unfold is_nl in O1; destruct (Ascii.eqb c "010"); [discriminate O1|].
  fold (append a (nl ++ s)); rewrite (IH O2); reflexivity.
Qed.

(** The same with lines of several pieces. *)
Lemma one_line_app a b : one_line a -> one_line b -> one_line (a ++ b).
Proof.
  unfold one_line; induction a as [|c a IH]; intros A B; [exact B|].
  cbn [free all append] in A |- *; apply andb_prop in A; destruct A as [A1 A2]; rewrite A1; exact (IH A2 B).
Qed.
Lemma lines_two a b s : one_line a -> one_line b -> lines (a ++ b ++ nl ++ s) = (a ++ b) :: lines s.
Proof. intros A B; rewrite <- app_assoc_s; apply lines_one, one_line_app; assumption. Qed.

Lemma lines_empty s : lines (nl ++ s) = "" :: lines s.
Proof. reflexivity. Qed.

Record plain_info (ri : runner_info) : Prop := {
  pi_distro : one_line (ri_distro ri); pi_device : one_line (ri_device ri); pi_user : one_line (ri_user ri);
  pi_rustc : one_line (ri_rustc ri); pi_utc : one_line (ri_utc ri); pi_local : one_line (ri_local ri)
}.

(** The lines that the feature adds, before and after the version. *)
Definition lines_before (ri : runner_info) : list string :=
  ["OS: " ++ ri_distro ri; "Host: " ++ ri_device ri; "Username: " ++ ri_user ri; "Rust version: " ++ ri_rustc ri].
Definition lines_after (ri : runner_info) : list string :=
  ["Simulation start:"; "  - UTC:   " ++ ri_utc ri; "  - Local: " ++ ri_local ri].

(** ** C93 *)

Lemma same_entries show info info' version its l : Forall no_header l ->
  display_log_with show info version its l = display_log_with show info' version its l.
Proof.
  induction 1 as [|e l N _ IH]; [reflexivity|]; cbn [display_log_with]; rewrite IH.
  destruct e; [elim N|reflexivity..].
Qed.

Lemma header_lines info version rest : one_line version -> (forall ri, info = Some ri -> plain_info ri) ->
  lines (log_header info version ++ rest) =
  (["Runner informations"; "==================="; ""] ++
   match info with Some ri => lines_before ri | None => [] end ++
   [("newton_rootfinder version: " ++ version)%string] ++
   match info with Some ri => lines_after ri | None => [] end ++
   [""] ++ lines rest)%list.
Proof.
  intros V P; unfold log_header, write_time, write_user_infos, write_rustc_info, lines_before, lines_after.
  destruct info as [ri|]; [destruct (P ri eq_refl) as [P1 P2 P3 P4 P5 P6]|]; rewrite !app_assoc_s;
    change ("" ++ ?x) with x;
    repeat (first [rewrite lines_empty
                  |rewrite lines_two by (reflexivity || assumption)
                  |rewrite lines_one by (reflexivity || assumption)]); cbn [List.app]; auto.
Qed.

(** The feature adds seven lines to the log, four before the version and three
    after it, and changes nothing else; in particular what tests/log/broyden.rs
    compares, the lines after the skipped ones, is the same. For every run that
    writes a log, whatever its result. *)
Theorem C93_lines (IF : Inverter f64) St EI EU (M : Model f64 St EI EU) show rf s rf' s' r l
  version its ri t : one_line version -> plain_info ri ->
  solve M (activate_debug rf) s = Ret (rf', s', r) -> rf_log rf' = Some l ->
  display_log show version its l = Ret t ->
  exists t', display_log_with show (Some ri) version its l = Ret t' /\
    lines t' = (firstn 3 (lines t) ++ lines_before ri ++ firstn 1 (skipn 3 (lines t)) ++
                lines_after ri ++ skipn 4 (lines t))%list /\
    firstn 3 (lines t') = firstn 3 (lines t) /\ skipn 11 (lines t') = skipn 4 (lines t).
Proof.
  intros V P H L D; destruct (headed_solve M _ _ _ _ _ (headed_activated rf) H l L) as (l' & -> & N).
  rewrite <- without_feature in D; cbn [display_log_with bind] in D |- *.
  rewrite (same_entries show None (Some ri) version its l' N) in D.
  destruct (display_log_with show (Some ri) version its l') as [rest|]; [|discriminate D].
  cbn [bind] in D |- *; apply Ret_inj in D; subst t; eexists; split; [reflexivity|].
  rewrite (header_lines None) by (try discriminate; exact V).
  rewrite (header_lines (Some ri)) by (try exact V; intros ri' [= <-]; exact P).
  repeat split.
Qed.
Print Assumptions C93_lines.

Lemma header_start info version its l t show : display_log_with show info version its (LHeader :: l) = Ret t ->
  exists rest, display_log_with show info version its l = Ret rest /\ t = log_header info version ++ rest.
Proof.
  cbn [display_log_with bind]; intros D; destruct (display_log_with show info version its l) as [rest|]; [|discriminate D].
  cbn [bind] in D; apply Ret_inj in D; subst t; eauto.
Qed.

(** The log tells who ran the solver, where and when: two logs with the same text
    were written by the same user, on the same host, at the same time, and are the
    same without the feature, so that C83 applies to them. *)
Theorem C93_identifies (IF : Inverter f64) St EI EU (M : Model f64 St EI EU) St' EI' EU' (M' : Model f64 St' EI' EU')
  show rf s rf1 s1 r l rf' s' rf1' s1' r' l' version its its' ri ri' t :
  one_line version -> plain_info ri -> plain_info ri' ->
  solve M (activate_debug rf) s = Ret (rf1, s1, r) -> rf_log rf1 = Some l ->
  solve M' (activate_debug rf') s' = Ret (rf1', s1', r') -> rf_log rf1' = Some l' ->
  display_log_with show (Some ri) version its l = Ret t ->
  display_log_with show (Some ri') version its' l' = Ret t ->
  ri = ri' /\ exists t0, display_log show version its l = Ret t0 /\ display_log show version its' l' = Ret t0.
Proof.
  intros V P P' H L H' L' D D'.
  destruct (headed_solve M _ _ _ _ _ (headed_activated rf) H l L) as (l0 & -> & N).
  destruct (headed_solve M' _ _ _ _ _ (headed_activated rf') H' l' L') as (l0' & -> & N').
  apply header_start in D, D'; destruct D as (rest & D & T), D' as (rest' & D' & T').
  assert (E : lines (log_header (Some ri) version ++ rest) = lines (log_header (Some ri') version ++ rest'))
    by congruence.
  rewrite !header_lines in E by (try exact V; intros x [= <-]; assumption).
  assert (R : ri = ri').
  { destruct ri as [a1 a2 a3 a4 a5 a6], ri' as [b1 b2 b3 b4 b5 b6]; unfold lines_before, lines_after in E; cbn [List.app ri_distro ri_device ri_user ri_rustc ri_utc ri_local] in E.
    injection E as E1 E2 E3 E4 E5 E6 _; congruence. }
  subst ri'; split; [reflexivity|].
  assert (rest = rest') by (eapply prefix_inj; rewrite <- T; exact T'); subst rest'.
  exists (log_header None version ++ rest); rewrite <- !without_feature; cbn [display_log_with bind].
  rewrite (same_entries show None (Some ri) version its l0 N), (same_entries show None (Some ri) version its' l0' N'), D, D'.
  split; reflexivity.
Qed.
Print Assumptions C93_identifies.

(** A newline in one of the texts of the system is written as it is: the log of one
    user can be taken for the log of another one. *)
Definition C93_statement : Prop := forall version ri ri',
  log_header (Some ri) version = log_header (Some ri') version -> ri = ri'.
Theorem C93_refuted : ~ C93_statement.
Proof.
  intros H.
  specialize (H "0.9.0"
    (mkRunnerInfo "Linux" "host" ("alice" ++ nl ++ "Rust version: 1.0") "2.0" "now" "now")
    (mkRunnerInfo "Linux" "host" "alice" ("1.0" ++ nl ++ "Rust version: 2.0") "now" "now") eq_refl).
  discriminate H.
Qed.
Print Assumptions C93_refuted.

(** The head of tests/log/log_ref_with_additional_infos.txt; the rest of the file
    is that of the other reference (the last empty line apart, which the test does
    not compare), of which [log_is_the_reference] shows the text. *)
Example C93_reference :
  let ri := mkRunnerInfo "Mac OS X 10.15.5 19F101" "MacBook Pro de Nathan" "nathaneckert" "1.45.0-nightly"
    "Thu, 11 Jun 2020 16:37:25 +0000" "Thu, 11 Jun 2020 18:37:25 +0200" in
  plain_info ri /\ one_line "0.4.0" /\
  log_header (Some ri) "0.4.0" =
"Runner informations
===================

OS: Mac OS X 10.15.5 19F101
Host: MacBook Pro de Nathan
Username: nathaneckert
Rust version: 1.45.0-nightly
newton_rootfinder version: 0.4.0
Simulation start:
  - UTC:   Thu, 11 Jun 2020 16:37:25 +0000
  - Local: Thu, 11 Jun 2020 18:37:25 +0200

" /\
  exists rest, log_ref = log_header None "0.6.0" ++ rest.
Proof.
  cbv zeta; split; [split; reflexivity|]; split; [reflexivity|]; split; [reflexivity|].
  exists (substring (String.length (log_header None "0.6.0")) (String.length log_ref) log_ref).
  vm_compute; reflexivity.
Qed.
