(** Residual vectors: characterisation. *)
From Verif Require Import Base Num Linalg Residuals Spec Tactics.

Section ResidualFacts.
Context {F : Type} {NF : Num F}.

Lemma evaluate_residuals_inv : forall f ms l r (e : vec F),
  evaluate_residuals f ms l r = Ret e ->
  length ms <= length l /\ length ms <= length r /\ length e = length l /\
  (forall i m, nth_error ms i = Some m -> exists x y,
     nth_error l i = Some x /\ nth_error r i = Some y /\ nth_error e i = Some (f x y m)) /\
  (forall i, length ms <= i -> i < length l -> nth_error e i = Some n0).
Proof.
  intros f ms. induction ms as [|m ms IH]; intros l r e H; cbn [evaluate_residuals] in H.
  - injection H as <-. cbn [length]. split; [lia|]. split; [lia|].
    split; [apply repeat_length|]. split.
    + intros [|i]; discriminate.
    + intros i _ Hi. apply nth_error_repeat. assumption.
  - destruct l as [|x l], r as [|y r]; try discriminate H.
    minv1 H. minv1 H. apply IH in E. destruct E as (H1 & H2 & H3 & H4 & H5).
    cbn [length]. split; [lia|]. split; [lia|]. split; [lia|]. split.
    + intros [|i] m0 Hm; cbn in *; [injection Hm as <-; eauto 10|eauto].
    + intros [|i] Hi Hl; [lia|]. cbn. apply H5; lia.
Qed.

Lemma evaluate_residuals_ret : forall f ms (l r : vec F),
  length ms <= length l -> length ms <= length r ->
  exists e, evaluate_residuals f ms l r = Ret e.
Proof.
  intros f ms. induction ms as [|m ms IH]; intros [|x l] [|y r] Hl Hr; cbn in *; try lia; eauto.
  destruct (IH l r) as (e & ->); [lia|lia|]. cbn. eauto.
Qed.

Lemma evaluate_residuals_panic : forall f ms (l r : vec F) p,
  evaluate_residuals f ms l r = Panic p ->
  p = PanicIndex /\ (length l < length ms \/ length r < length ms).
Proof.
  intros f ms. induction ms as [|m ms IH]; intros [|x l] [|y r] p H; cbn in *; try discriminate;
    try (injection H as <-; split; [reflexivity|lia]).
  destruct (evaluate_residuals f ms l r) eqn:E; cbn in H; [discriminate|].
  injection H as <-. destruct (IH l r p0 E) as (-> & Hlt). split; [reflexivity|lia].
Qed.

Lemma normalization_spec : forall (x y : F) m, normalization x y m = residual m x y.
Proof. intros x y []; reflexivity. Qed.

(** The entries of the stopping residual vector. *)
Lemma stopping_vector : forall c (v : residuals_values F) e,
  evaluate_stopping_residuals c v = Ret e ->
  described (stopping_criterias c) v /\
  length e = length (rv_left v) /\
  (forall r, stopping_residual (stopping_criterias c) v r -> In r e) /\
  (forall r, In r e -> stopping_residual (stopping_criterias c) v r \/
     (length (stopping_criterias c) < length (rv_left v) /\ r = n0)).
Proof.
  intros c v e H. apply evaluate_residuals_inv in H.
  destruct H as (H1 & H2 & H3 & H4 & H5).
  split; [split; assumption|]. split; [assumption|]. split.
  - intros r (i & m & x & y & (Hm & Hx & Hy) & ->).
    destruct (H4 i m Hm) as (x' & y' & Hx' & Hy' & He).
    rewrite Hx in Hx'. injection Hx' as <-. rewrite Hy in Hy'. injection Hy' as <-.
    rewrite normalization_spec in He. eapply nth_error_In; eauto.
  - intros r Hr. apply In_nth_error in Hr. destruct Hr as (i & Hi).
    destruct (nth_error (stopping_criterias c) i) as [m|] eqn:Em.
    + destruct (H4 i m Em) as (x & y & Hx & Hy & He). left.
      exists i, m, x, y. split; [split; auto|]. rewrite Hi in He. injection He as ->.
      now rewrite normalization_spec.
    + apply nth_error_None in Em.
      assert (Hl : i < length (rv_left v)).
      { rewrite <- H3. apply nth_error_Some. congruence. }
      rewrite (H5 i Em Hl) in Hi. injection Hi as <-. right. split; [lia|reflexivity].
Qed.

End ResidualFacts.
