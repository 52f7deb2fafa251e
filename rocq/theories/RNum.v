(** Exact real arithmetic as a scalar type, without infinities: the formulas of
    the model on real numbers. Division by zero is not meaningful here (every
    theorem excludes it); [ninf] and [nnan] are never used. *)
From Coq Require Import Reals Lra.
From Verif Require Import Base Num Linalg.
Open Scope R_scope.

Definition Rltb (x y : R) : bool := if Rlt_dec x y then true else false.
Definition Rleb (x y : R) : bool := if Rle_dec x y then true else false.
Definition Reqb (x y : R) : bool := if Req_EM_T x y then true else false.
(** [f64::signum] with a single, positive, zero. *)
Definition Rsignum (x : R) : R := if Rlt_dec x 0 then -1 else 1.

#[global] Instance Num_R : Num R := {
  nadd := Rplus; nsub := Rminus; nmul := Rmult; ndiv := Rdiv;
  nneg := Ropp; nabs := Rabs; nsignum := Rsignum;
  nltb := Rltb; nleb := Rleb; neqb := Reqb;
  nofZ := IZR; ninf := 0; nnan := 0
}.

Lemma Rltb_true x y : Rltb x y = true <-> x < y.
Proof. unfold Rltb; destruct (Rlt_dec x y); split; try discriminate; auto; lra. Qed.
Lemma Rltb_false x y : Rltb x y = false <-> y <= x.
Proof. unfold Rltb; destruct (Rlt_dec x y); split; try discriminate; auto; lra. Qed.
Lemma Rleb_true x y : Rleb x y = true <-> x <= y.
Proof. unfold Rleb; destruct (Rle_dec x y); split; try discriminate; auto; lra. Qed.
Lemma Rleb_false x y : Rleb x y = false <-> y < x.
Proof. unfold Rleb; destruct (Rle_dec x y); split; try discriminate; auto; lra. Qed.
Lemma Reqb_true x y : Reqb x y = true <-> x = y.
Proof. unfold Reqb; destruct (Req_EM_T x y); split; try discriminate; auto; lra. Qed.
Lemma Reqb_false x y : Reqb x y = false <-> x <> y.
Proof. unfold Reqb; destruct (Req_EM_T x y); split; try discriminate; auto; tauto. Qed.

(** ** Finite sums *)
Fixpoint rsum (n : nat) (f : nat -> R) : R :=
  match n with
  | O => 0
  | S n' => f O + rsum n' (fun i => f (S i))
  end.

Lemma rsum_ext : forall n f g, (forall i, (i < n)%nat -> f i = g i) -> rsum n f = rsum n g.
Proof.
  induction n as [|n IH]; intros f g H; cbn [rsum]; [reflexivity|].
  rewrite (H O) by lia; f_equal; apply IH; intros; apply H; lia.
Qed.
Lemma rsum_plus : forall n f g, rsum n (fun i => f i + g i) = rsum n f + rsum n g.
Proof. induction n as [|n IH]; intros f g; cbn [rsum]; [lra|rewrite IH; lra]. Qed.
Lemma rsum_minus : forall n f g, rsum n (fun i => f i - g i) = rsum n f - rsum n g.
Proof. induction n as [|n IH]; intros f g; cbn [rsum]; [lra|rewrite IH; lra]. Qed.
Lemma rsum_scal_l : forall n a f, rsum n (fun i => a * f i) = a * rsum n f.
Proof. induction n as [|n IH]; intros a f; cbn [rsum]; [lra|rewrite IH; lra]. Qed.
Lemma rsum_scal_r : forall n a f, rsum n (fun i => f i * a) = rsum n f * a.
Proof. induction n as [|n IH]; intros a f; cbn [rsum]; [lra|rewrite IH; lra]. Qed.
Lemma rsum_div : forall n a f, rsum n (fun i => f i / a) = rsum n f / a.
Proof. intros n a f; unfold Rdiv; apply rsum_scal_r. Qed.
Lemma rsum_zero : forall n f, (forall i, (i < n)%nat -> f i = 0) -> rsum n f = 0.
Proof.
  induction n as [|n IH]; intros f H; cbn [rsum]; [reflexivity|].
  rewrite (H O) by lia; rewrite IH; [lra|]; intros; apply H; lia.
Qed.
Lemma rsum_swap : forall n m (f : nat -> nat -> R),
  rsum n (fun i => rsum m (fun j => f i j)) = rsum m (fun j => rsum n (fun i => f i j)).
Proof.
  induction n as [|n IH]; intros m f; cbn [rsum].
  - symmetry; apply rsum_zero; reflexivity.
  - rewrite IH, <- rsum_plus; reflexivity.
Qed.
Lemma rsum_delta : forall n k f, (k < n)%nat ->
  rsum n (fun i => (if Nat.eqb i k then 1 else 0) * f i) = f k.
Proof.
  induction n as [|n IH]; intros k f H; [lia|]; cbn [rsum].
  destruct k as [|k]; cbn [Nat.eqb].
  - rewrite rsum_zero; [lra|]; intros; lra.
  - rewrite (IH k (fun i => f (S i))) by lia; lra.
Qed.
Lemma rsum_delta_r : forall n k f, (k < n)%nat ->
  rsum n (fun i => f i * (if Nat.eqb i k then 1 else 0)) = f k.
Proof.
  intros n k f H; rewrite <- (rsum_delta n k f H); apply rsum_ext; intros; lra.
Qed.
Lemma rsum_single : forall n k f, (k < n)%nat ->
  (forall i, (i < n)%nat -> i <> k -> f i = 0) -> rsum n f = f k.
Proof.
  intros n k f H Z; rewrite <- (rsum_delta n k f H); apply rsum_ext.
  intros i Hi; destruct (Nat.eqb_spec i k) as [->|N]; [lra|rewrite Z by assumption; lra].
Qed.
Lemma rsum_nonneg : forall n f, (forall i, (i < n)%nat -> 0 <= f i) -> 0 <= rsum n f.
Proof.
  induction n as [|n IH]; intros f H; cbn [rsum]; [lra|].
  pose proof (H O ltac:(lia)); pose proof (IH (fun i => f (S i)) ltac:(intros; apply H; lia)); lra.
Qed.
Lemma rsum_pos_zero : forall n f, (forall i, (i < n)%nat -> 0 <= f i) -> rsum n f = 0 ->
  forall i, (i < n)%nat -> f i = 0.
Proof.
  induction n as [|n IH]; intros f H Z i Hi; [lia|]; cbn [rsum] in Z.
  pose proof (H O ltac:(lia)).
  pose proof (rsum_nonneg n (fun i => f (S i)) ltac:(intros; apply H; lia)).
  destruct i as [|i]; [lra|].
  apply (IH (fun i => f (S i))); [intros; apply H; lia|lra|lia].
Qed.

(** ** Vectors and matrices by their entries *)
Definition vent (v : vec R) (i : nat) : R := nth i v 0.
Definition ment (A : mat R) (i j : nat) : R := nth j (nth i A []) 0.
Definition is_mat (n : nat) (A : mat R) : Prop :=
  length A = n /\ forall i, (i < n)%nat -> length (nth i A []) = n.

Lemma vec_ext (u v : vec R) n : length u = n -> length v = n ->
  (forall i, (i < n)%nat -> vent u i = vent v i) -> u = v.
Proof.
  intros H1 H2 E; apply nth_ext with (d := 0) (d' := 0); [congruence|].
  intros i Hi; apply E; lia.
Qed.
Lemma mat_ext (A B : mat R) n : is_mat n A -> is_mat n B ->
  (forall i j, (i < n)%nat -> (j < n)%nat -> ment A i j = ment B i j) -> A = B.
Proof.
  intros [H1 R1] [H2 R2] E.
  apply nth_ext with (d := []) (d' := []); [congruence|].
  intros i Hi; apply (vec_ext _ _ n); [apply R1; lia|apply R2; lia|].
  intros j Hj; apply E; lia.
Qed.

Lemma nth_map_in {A B} (f : A -> B) l i d d' : (i < length l)%nat ->
  nth i (map f l) d = f (nth i l d').
Proof.
  intros H; rewrite (nth_indep _ d (f d')) by (rewrite map_length; exact H); apply map_nth.
Qed.

Lemma nth_map2_in {A B C} (f : A -> B -> C) d da db : forall u v i,
  length u = length v -> (i < length u)%nat ->
  nth i (map2 f u v) d = f (nth i u da) (nth i v db).
Proof.
  induction u as [|x u IH]; intros [|y v] i L H; cbn [length map2] in *; try lia.
  destruct i as [|i]; cbn [nth]; [reflexivity|]; apply IH; lia.
Qed.

Lemma map2_length {A B C} (f : A -> B -> C) : forall u v,
  length u = length v -> length (map2 f u v) = length u.
Proof.
  induction u as [|x u IH]; intros [|y v] H; cbn [map2 length] in *; try discriminate; auto.
Qed.

Lemma fold_plus : forall l a, fold_left Rplus l a = a + fold_left Rplus l 0.
Proof.
  induction l as [|x l IH]; intros a; cbn [fold_left]; [lra|].
  rewrite IH, (IH (0 + x)); lra.
Qed.

Lemma dot_nil v : dot ([] : vec R) v = 0.
Proof. destruct v; reflexivity. Qed.
Lemma dot_cons a b (u v : vec R) : dot (a :: u) (b :: v) = a * b + dot u v.
Proof.
  unfold dot; cbn [map2 nmul Num_R].
  change (fold_left nadd (map2 Rmult u v) (a * b)) with
    (fold_left Rplus (map2 Rmult u v) (a * b)).
  rewrite fold_plus.
  destruct (map2 Rmult u v) as [|p ps] eqn:E; cbn [fold_left]; [reflexivity|].
  change (fold_left (@nadd R Num_R)) with (fold_left Rplus).
  replace (0 + p) with p by lra; reflexivity.
Qed.

Lemma dot_rsum : forall n (u v : vec R), length u = n -> length v = n ->
  dot u v = rsum n (fun i => vent u i * vent v i).
Proof.
  induction n as [|n IH]; intros u v Hu Hv.
  - destruct u; [|discriminate]; apply dot_nil.
  - destruct u as [|a u], v as [|b v]; try discriminate.
    rewrite dot_cons; cbn [rsum vent nth]; f_equal; apply IH; cbn [length] in *; lia.
Qed.

Section Entries.
Context (n : nat).
Implicit Types (A B : mat R) (u v w : vec R).

Lemma len_sub u v : length u = n -> length v = n -> length (vsub_raw u v) = n.
Proof. intros; unfold vsub_raw; rewrite map2_length; congruence. Qed.
Lemma ent_sub u v i : length u = n -> length v = n -> (i < n)%nat ->
  vent (vsub_raw u v) i = vent u i - vent v i.
Proof. intros; unfold vsub_raw, vent; rewrite (nth_map2_in _ 0 0 0); [reflexivity|congruence|lia]. Qed.
Lemma len_add u v : length u = n -> length v = n -> length (vadd_raw u v) = n.
Proof. intros; unfold vadd_raw; rewrite map2_length; congruence. Qed.
Lemma ent_add u v i : length u = n -> length v = n -> (i < n)%nat ->
  vent (vadd_raw u v) i = vent u i + vent v i.
Proof. intros; unfold vadd_raw, vent; rewrite (nth_map2_in _ 0 0 0); [reflexivity|congruence|lia]. Qed.
Lemma len_scale u a : length u = n -> length (vscale u a) = n.
Proof. intros; unfold vscale; rewrite map_length; assumption. Qed.
Lemma ent_scale u a i : length u = n -> (i < n)%nat -> vent (vscale u a) i = vent u i * a.
Proof. intros; unfold vscale, vent; rewrite (nth_map_in _ _ _ _ 0); [reflexivity|lia]. Qed.
Lemma len_div u a : length u = n -> length (vdiv u a) = n.
Proof. intros; unfold vdiv; rewrite map_length; assumption. Qed.
Lemma ent_div u a i : length u = n -> (i < n)%nat -> vent (vdiv u a) i = vent u i / a.
Proof. intros; unfold vdiv, vent; rewrite (nth_map_in _ _ _ _ 0); [reflexivity|lia]. Qed.

Lemma len_mat_vec A v : is_mat n A -> length (mat_vec A v) = n.
Proof. intros [H _]; unfold mat_vec; rewrite map_length; exact H. Qed.
Lemma ent_mat_vec A v i : is_mat n A -> length v = n -> (i < n)%nat ->
  vent (mat_vec A v) i = rsum n (fun k => ment A i k * vent v k).
Proof.
  intros [H R] Hv Hi; unfold mat_vec, vent at 1; rewrite (nth_map_in _ _ _ _ []) by lia.
  rewrite (dot_rsum n); [reflexivity|apply R; lia|exact Hv].
Qed.

Lemma is_mat_map (A : mat R) (f : list R -> list R) : is_mat n A ->
  (forall r, length r = n -> length (f r) = n) -> is_mat n (map f A).
Proof.
  intros [H R] L; split; [rewrite map_length; exact H|].
  intros i Hi; rewrite (nth_map_in _ _ _ _ []) by lia; apply L, R, Hi.
Qed.

Lemma is_mat_transpose A : is_mat n A -> is_mat n (transpose A).
Proof.
  intros [H R]; unfold transpose; split; [rewrite map_length, seq_length; exact H|].
  intros i Hi; rewrite (nth_map_in _ _ _ _ 0%nat) by (rewrite seq_length; lia).
  rewrite map_length; exact H.
Qed.
Lemma ent_transpose A i j : is_mat n A -> (i < n)%nat -> (j < n)%nat ->
  ment (transpose A) i j = ment A j i.
Proof.
  intros [H R] Hi Hj; unfold ment, transpose.
  rewrite (nth_map_in _ _ _ _ 0%nat) by (rewrite seq_length; lia).
  rewrite seq_nth by lia; cbn [plus].
  rewrite (nth_map_in _ _ _ _ []) by lia; reflexivity.
Qed.

Lemma len_vec_mat A v : is_mat n A -> length (vec_mat v A) = n.
Proof.
  intros [H _]; unfold vec_mat, transpose; rewrite !map_length, seq_length; exact H.
Qed.
Lemma ent_vec_mat A v j : is_mat n A -> length v = n -> (j < n)%nat ->
  vent (vec_mat v A) j = rsum n (fun k => vent v k * ment A k j).
Proof.
  intros M Hv Hj; pose proof (is_mat_transpose A M) as [T1 T2].
  unfold vec_mat, vent at 1; rewrite (nth_map_in _ _ _ _ []) by lia.
  rewrite (dot_rsum n); [|exact Hv|apply T2; lia].
  apply rsum_ext; intros k Hk; f_equal; apply (ent_transpose A j k M Hj Hk).
Qed.

Lemma is_mat_mul A B : is_mat n A -> is_mat n B -> is_mat n (mat_mul A B).
Proof. intros MA MB; apply is_mat_map; [exact MA|]; intros r _; apply len_vec_mat, MB. Qed.
Lemma ent_mul A B i j : is_mat n A -> is_mat n B -> (i < n)%nat -> (j < n)%nat ->
  ment (mat_mul A B) i j = rsum n (fun k => ment A i k * ment B k j).
Proof.
  intros [HA RA] MB Hi Hj; unfold ment at 1, mat_mul.
  rewrite (nth_map_in _ _ _ _ []) by lia.
  apply (ent_vec_mat B (nth i A []) j MB); [apply RA, Hi|exact Hj].
Qed.

Lemma is_mat_outer u v : length u = n -> length v = n -> is_mat n (outer u v).
Proof.
  intros Hu Hv; unfold outer; split; [rewrite map_length; exact Hu|].
  intros i Hi; rewrite (nth_map_in _ _ _ _ 0) by lia; rewrite map_length; exact Hv.
Qed.
Lemma ent_outer u v i j : length u = n -> length v = n -> (i < n)%nat -> (j < n)%nat ->
  ment (outer u v) i j = vent u i * vent v j.
Proof.
  intros Hu Hv Hi Hj; unfold ment, outer; rewrite (nth_map_in _ _ _ _ 0) by lia.
  rewrite (nth_map_in _ _ _ _ 0) by lia; reflexivity.
Qed.

Lemma is_mat_sub A B : is_mat n A -> is_mat n B -> is_mat n (mat_sub A B).
Proof.
  intros [HA RA] [HB RB]; unfold mat_sub; split.
  { rewrite map2_length; [exact HA|exact (eq_trans HA (eq_sym HB))]. }
  intros i Hi; rewrite (nth_map2_in _ _ [] []);
    [apply len_sub; auto|exact (eq_trans HA (eq_sym HB))|rewrite HA; exact Hi].
Qed.
Lemma ent_msub A B i j : is_mat n A -> is_mat n B -> (i < n)%nat -> (j < n)%nat ->
  ment (mat_sub A B) i j = ment A i j - ment B i j.
Proof.
  intros [HA RA] [HB RB] Hi Hj; unfold mat_sub, ment at 1.
  rewrite (nth_map2_in _ _ [] []); [|exact (eq_trans HA (eq_sym HB))|rewrite HA; exact Hi].
  apply (ent_sub (nth i A []) (nth i B [])); auto.
Qed.

Lemma is_mat_div A a : is_mat n A -> is_mat n (mat_div A a).
Proof. intros M; apply is_mat_map; [exact M|]; intros r; apply len_div. Qed.
Lemma ent_mdiv A a i j : is_mat n A -> (i < n)%nat -> (j < n)%nat ->
  ment (mat_div A a) i j = ment A i j / a.
Proof.
  intros [HA RA] Hi Hj; unfold mat_div, ment at 1.
  rewrite (nth_map_in _ _ _ _ []) by lia; apply (ent_div (nth i A [])); auto.
Qed.

Lemma is_mat_neg A : is_mat n A -> is_mat n (mat_neg A).
Proof. intros M; apply is_mat_map; [exact M|]; intros r; rewrite map_length; auto. Qed.
Lemma ent_mneg A i j : is_mat n A -> (i < n)%nat -> (j < n)%nat ->
  ment (mat_neg A) i j = - ment A i j.
Proof.
  intros [HA RA] Hi Hj; unfold mat_neg, ment at 1.
  rewrite (nth_map_in _ _ _ _ []) by lia.
  rewrite (nth_map_in _ _ _ _ 0) by (rewrite RA; lia); reflexivity.
Qed.

Lemma is_mat_identity : is_mat n (identity n : mat R).
Proof.
  unfold identity; split; [rewrite map_length; apply seq_length|].
  intros i Hi; rewrite (nth_map_in _ _ _ _ 0%nat) by (rewrite seq_length; lia).
  rewrite map_length; apply seq_length.
Qed.
Lemma ent_identity i j : (i < n)%nat -> (j < n)%nat ->
  ment (identity n) i j = if Nat.eqb i j then 1 else 0.
Proof.
  intros Hi Hj; unfold ment, identity.
  rewrite (nth_map_in _ _ _ _ 0%nat) by (rewrite seq_length; lia).
  rewrite (nth_map_in _ _ _ _ 0%nat) by (rewrite seq_length; lia).
  rewrite !seq_nth by lia; reflexivity.
Qed.

End Entries.
