(** Absence of panics, as a predicate on outcomes, and the lengths kept by the
    functions of the model. *)
From Verif Require Import Base Num Linalg Residuals Iteratives UserModel Jacobian Solver.

Definition safe {A} (o : outcome A) (P : A -> Prop) : Prop :=
  match o with
  | Ret a => P a
  | Panic _ => False
  end.

Lemma safe_bind {A B} (o : outcome A) (k : A -> outcome B) (P : A -> Prop) (Q : B -> Prop) :
  safe o P -> (forall a, P a -> safe (k a) Q) -> safe (bind o k) Q.
Proof. destruct o as [a|p]; cbn [safe bind]; intros H K; [apply K, H|destruct H]. Qed.

Lemma safe_mono {A} (o : outcome A) (P Q : A -> Prop) :
  safe o P -> (forall a, P a -> Q a) -> safe o Q.
Proof. destruct o; cbn [safe]; auto. Qed.

Lemma length_map2 {A B C} (f : A -> B -> C) : forall u v,
  length u = length v -> length (map2 f u v) = length u.
Proof.
  induction u as [|x u IH]; intros [|y v] H; cbn [map2 length] in *; try discriminate; auto.
Qed.

Lemma update_at_safe {A} (f : A -> A) : forall v i, i < length v ->
  safe (update_at v i f) (fun w => length w = length v).
Proof.
  induction v as [|x v IH]; intros i H; cbn [length] in H; [lia|].
  destruct i as [|i]; cbn [update_at]; [reflexivity|].
  apply safe_bind with (P := fun w => length w = length v); [apply IH; lia|].
  intros w Hw; cbn [safe length]; lia.
Qed.

Section Safe.
Context {F : Type} {NF : Num F}.

Lemma index_safe {A} (v : list A) i : i < length v -> safe (index v i) (fun _ => True).
Proof.
  intros H; unfold index; destruct (nth_error v i) eqn:E; cbn [safe]; auto.
  apply nth_error_None in E; lia.
Qed.

Lemma evaluate_residuals_safe f : forall methods (left right : vec F),
  length methods = length left -> length right = length left ->
  safe (evaluate_residuals f methods left right) (fun v => length v = length left).
Proof.
  induction methods as [|m ms IH]; intros left right H1 H2; cbn [evaluate_residuals].
  - cbn [safe]; unfold vzeros; apply repeat_length.
  - destruct left as [|x left], right as [|y right]; try discriminate.
    cbn [length] in *.
    apply safe_bind with (P := fun v => length v = length left); [apply IH; lia|].
    intros a Ha; cbn [safe length]; lia.
Qed.

Lemma step_limitations_safe : forall (its : list (iterative F)) values raw,
  length its = length values -> length raw = length values ->
  safe (step_limitations its values raw) (fun v => length v = length values).
Proof.
  induction its as [|it its IH]; intros values raw H1 H2; cbn [step_limitations].
  - cbn [safe]; unfold vzeros; apply repeat_length.
  - destruct values as [|x values], raw as [|y raw]; try discriminate.
    cbn [length] in *.
    apply safe_bind with (P := fun v => length v = length values); [apply IH; lia|].
    intros a Ha; cbn [safe length]; lia.
Qed.

Lemma compute_perturbations_safe : forall (its : list (iterative F)) values,
  length its = length values ->
  (forall it x, In it its -> safe (it_compute_perturbation it x) (fun _ => True)) ->
  safe (compute_perturbations its values) (fun v => length v = length values).
Proof.
  induction its as [|it its IH]; intros values H1 H2; cbn [compute_perturbations].
  - cbn [safe]; unfold vzeros; apply repeat_length.
  - destruct values as [|x values]; try discriminate.
    cbn [length] in *.
    eapply safe_bind; [apply H2; left; reflexivity|]; intros d _.
    apply safe_bind with (P := fun v => length v = length values).
    + apply IH; [lia|]; intros; apply H2; right; assumption.
    + intros a Ha; cbn [safe length]; lia.
Qed.

Lemma normalize_rows_safe n : forall (L R : mat F) left right methods,
  length L = length left -> length R = length left ->
  length right = length left -> length methods = length left ->
  safe (normalize_rows n L R left right methods) (fun m => length m = length left).
Proof.
  induction L as [|dl L IH]; intros R left right methods H1 H2 H3 H4;
    cbn [normalize_rows].
  - cbn [safe]; apply map_length.
  - destruct left as [|x left], right as [|y right], R as [|dr R], methods as [|m methods];
      try discriminate.
    cbn [length] in *.
    apply safe_bind with (P := fun m => length m = length left); [apply IH; lia|].
    intros a Ha; cbn [safe length]; lia.
Qed.

Lemma vsub_safe (u v : vec F) : length u = length v ->
  safe (vsub u v) (fun w => length w = length u).
Proof.
  intros H; unfold vsub; rewrite H, Nat.eqb_refl; cbn [safe]; unfold vsub_raw.
  rewrite <- H; apply length_map2, H.
Qed.

Lemma vadd_safe (u v : vec F) : length u = length v ->
  safe (vadd u v) (fun w => length w = length u).
Proof.
  intros H; unfold vadd; rewrite H, Nat.eqb_refl; cbn [safe]; unfold vadd_raw.
  rewrite <- H; apply length_map2, H.
Qed.

Lemma mat_vec_chk_safe (A : mat F) v : length A = length v ->
  safe (mat_vec_chk A v) (fun w => length w = length v).
Proof.
  intros H; unfold mat_vec_chk; rewrite H, Nat.eqb_refl; cbn [safe]; unfold mat_vec.
  rewrite map_length; exact H.
Qed.

Lemma length_mat_of_cols n (cols : list (vec F)) : length (mat_of_cols n cols) = n.
Proof. unfold mat_of_cols; rewrite map_length; apply seq_length. Qed.

(** The LU inverse has as many rows as the matrix. *)
Lemma swap_rows_length {A} (rows : list A) k : length (swap_rows rows k) = length rows.
Proof.
  unfold swap_rows; destruct k as [|k]; [reflexivity|].
  destruct rows as [|r0 rest]; [reflexivity|].
  destruct (nth_error rest k) eqn:E; [|reflexivity].
  cbn [length]; f_equal; rewrite app_length; cbn [length].
  assert (H : k < length rest) by (apply nth_error_Some; congruence).
  rewrite firstn_length, skipn_length; lia.
Qed.

Lemma lu_forward_length : forall n (rows : list (vec F * vec F)) u,
  lu_forward n rows = Some u -> length rows = n -> length u = n.
Proof.
  induction n as [|n IH]; intros rows u H L; cbn [lu_forward] in H.
  - injection H as <-; reflexivity.
  - set (k := icamax _) in H.
    pose proof (eq_trans (swap_rows_length rows k) L) as SL.
    destruct (swap_rows rows k) as [|[piv b] rest]; [discriminate SL|].
    destruct (neqb (hd n0 piv) n0); [discriminate|].
    match type of H with
    | match ?e with _ => _ end = _ => destruct e as [u'|] eqn:E; [|discriminate]
    end.
    injection H as <-.
    injection SL as SL.
    apply IH in E; [cbn [length]; rewrite E; reflexivity|].
    rewrite map_length; exact SL.
Qed.

Lemma lu_backward_length : forall (u : list (vec F * vec F)),
  length (lu_backward u) = length u.
Proof. induction u as [|[r b] u IH]; cbn [lu_backward length]; auto. Qed.

Lemma identity_length n : length (identity n : mat F) = n.
Proof. unfold identity; rewrite map_length; apply seq_length. Qed.

Lemma lu_inverse_length (A H : mat F) : lu_inverse A = Some H -> length H = length A.
Proof.
  unfold lu_inverse; intros E.
  destruct (lu_forward _ _) as [u|] eqn:U; [|discriminate]; injection E as <-.
  rewrite lu_backward_length; eapply lu_forward_length; [exact U|].
  rewrite combine_length, identity_length; lia.
Qed.

Lemma same_size_true (A : mat F) s y c n : length A = n -> length s = n -> length y = n ->
  length c = n -> same_size A s y c = true.
Proof.
  intros H1 H2 H3 H4; unfold same_size; rewrite H1, H2, H3, H4, Nat.eqb_refl; reflexivity.
Qed.

Lemma length_outer (u v : vec F) : length (outer u v) = length u.
Proof. apply map_length. Qed.
Lemma length_mat_div (A : mat F) a : length (mat_div A a) = length A.
Proof. apply map_length. Qed.
Lemma length_mat_mul (A B : mat F) : length (mat_mul A B) = length A.
Proof. apply map_length. Qed.
Lemma length_transpose (A : mat F) : length (transpose A) = length A.
Proof. unfold transpose; rewrite map_length; apply seq_length. Qed.
Lemma length_defect (A : mat F) s y : length A = length y -> length (defect A s y) = length A.
Proof.
  intros H; unfold defect, vsub_raw, mat_vec; rewrite length_map2; rewrite map_length; auto.
Qed.
Lemma length_mat_sub (A B : mat F) : length A = length B -> length (mat_sub A B) = length A.
Proof. apply length_map2. Qed.

End Safe.
