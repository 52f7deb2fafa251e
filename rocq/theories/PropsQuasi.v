(** Exact linear algebra: C31, C32, C33 (the quasi-Newton formulas) and C60 (the
    LU inverse), on the real instance of the model, in every dimension. *)
From Coq Require Import Reals Lra.
From Verif Require Import Base Num Linalg Jacobian RNum LuFacts.
Open Scope R_scope.

#[global] Instance Inverter_R : Inverter R := lu_inverse.

(** ** Vocabulary, in terms of entries only *)
Definition square (n : nat) (A : mat R) : Prop := is_mat n A.
Definition inner (n : nat) (u v : vec R) : R := rsum n (fun i => vent u i * vent v i).
(** Entry [i] of [A v], entry [j] of [v^T A], entry [(i,j)] of [A B]. *)
Definition app (n : nat) (A : mat R) (v : vec R) (i : nat) : R :=
  rsum n (fun k => ment A i k * vent v k).
Definition appT (n : nat) (v : vec R) (A : mat R) (j : nat) : R :=
  rsum n (fun k => vent v k * ment A k j).
Definition prod (n : nat) (A B : mat R) (i j : nat) : R :=
  rsum n (fun k => ment A i k * ment B k j).
Definition delta (i j : nat) : R := if Nat.eqb i j then 1 else 0.
Definition inverse_of (n : nat) (A B : mat R) : Prop :=
  forall i j, (i < n)%nat -> (j < n)%nat ->
  prod n A B i j = delta i j /\ prod n B A i j = delta i j.

Lemma mul_inverse_of n A B : is_mat n A -> is_mat n B ->
  mat_mul A B = identity n -> mat_mul B A = identity n -> inverse_of n A B.
Proof.
  intros MA MB E1 E2 i j Hi Hj; split; unfold prod.
  - rewrite <- (ent_mul n A B) by assumption; rewrite E1; apply ent_identity; assumption.
  - rewrite <- (ent_mul n B A) by assumption; rewrite E2; apply ent_identity; assumption.
Qed.
Lemma inverse_of_mul n A B : is_mat n A -> is_mat n B -> inverse_of n A B ->
  mat_mul A B = identity n /\ mat_mul B A = identity n.
Proof.
  intros MA MB I; split;
    (apply (mat_ext _ _ n); [apply is_mat_mul; assumption|apply is_mat_identity|]);
    intros i j Hi Hj; rewrite (ent_mul n), (ent_identity n) by assumption;
    destruct (I i j Hi Hj) as [I1 I2]; assumption.
Qed.

(** ** C60 *)
Theorem C60_inverse : forall n (J H : mat R),
  square n J -> try_inverse J = Some H -> square n H /\ inverse_of n J H.
Proof.
  intros n J H S E; destruct (lu_inverse_exact n J H S E) as (MH & E1 & E2).
  split; [exact MH|]; apply mul_inverse_of; assumption.
Qed.
Print Assumptions C60_inverse.

Definition singular (n : nat) (J : mat R) : Prop :=
  exists x, length x = n /\ (exists i, (i < n)%nat /\ vent x i <> 0) /\
  forall i, (i < n)%nat -> app n J x i = 0.

Theorem C60_fails_only_on_singular : forall n (J : mat R),
  square n J -> (try_inverse J = None <-> singular n J).
Proof.
  intros n J S; split.
  - intros E; destruct (lu_inverse_fails n J S E) as (x & Lx & Nz & K).
    exists x; split; [exact Lx|]; split; [exact Nz|].
    intros i Hi; unfold app; rewrite <- (ent_mat_vec n J x i S Lx Hi); apply K, Hi.
  - intros (x & Lx & (i & Hi & Nz) & K).
    destruct (try_inverse J) as [H|] eqn:E; [|reflexivity]; exfalso; apply Nz.
    destruct (C60_inverse n J H S E) as [MH I].
    transitivity (rsum n (fun k => prod n H J i k * vent x k)).
    + symmetry; rewrite (rsum_ext n _ (fun k => (if Nat.eqb k i then 1 else 0) * vent x k)).
      * apply (rsum_delta n i (vent x)), Hi.
      * intros k Hk; destruct (I i k Hi Hk) as [_ ->]; unfold delta; rewrite Nat.eqb_sym; reflexivity.
    + unfold prod.
      rewrite (rsum_ext n _ (fun k => rsum n (fun l => ment H i l * (ment J l k * vent x k)))).
      2: { intros k Hk; rewrite <- rsum_scal_r; apply rsum_ext; intros; lra. }
      rewrite rsum_swap; apply rsum_zero; intros l Hl; rewrite rsum_scal_l.
      change (rsum n (fun k => ment J l k * vent x k)) with (app n J x l).
      rewrite K by exact Hl; lra.
Qed.
Print Assumptions C60_fails_only_on_singular.

(** A case with a row exchange, and a singular matrix. *)
Example C60_case :
  square 2 [[0; 2]; [1; 1]] /\
  (exists H, try_inverse [[0; 2]; [1; 1]] = Some H /\
             ment H 0 0 = -1/2 /\ ment H 0 1 = 1 /\ ment H 1 0 = 1/2 /\ ment H 1 1 = 0) /\
  try_inverse [[1; 2]; [2; 4]] = None.
Proof.
  assert (S : square 2 [[0; 2]; [1; 1]]).
  { split; [reflexivity|]; intros [|[|i]] Hi; try reflexivity; lia. }
  split; [exact S|]; split.
  - destruct (try_inverse [[0; 2]; [1; 1]]) as [H|] eqn:E.
    + exists H; split; [reflexivity|].
      destruct (C60_inverse 2 _ H S E) as [_ I].
      destruct (I 0%nat 0%nat) as [A _]; try lia; destruct (I 0%nat 1%nat) as [B _]; try lia.
      destruct (I 1%nat 0%nat) as [C _]; try lia; destruct (I 1%nat 1%nat) as [D _]; try lia.
      unfold prod, delta in A, B, C, D; cbn [rsum Nat.eqb] in A, B, C, D.
      change (ment [[0; 2]; [1; 1]] 0 0) with 0 in A, B; change (ment [[0; 2]; [1; 1]] 0 1) with 2 in A, B.
      change (ment [[0; 2]; [1; 1]] 1 0) with 1 in C, D; change (ment [[0; 2]; [1; 1]] 1 1) with 1 in C, D.
      lra.
    + exfalso; apply (C60_fails_only_on_singular 2 _ S) in E.
      destruct E as (x & Lx & (i & Hi & Nz) & K).
      pose proof (K 0%nat ltac:(lia)) as K0; pose proof (K 1%nat ltac:(lia)) as K1.
      unfold app in K0, K1; cbn [rsum] in K0, K1.
      change (ment [[0; 2]; [1; 1]] 0 0) with 0 in K0; change (ment [[0; 2]; [1; 1]] 0 1) with 2 in K0.
      change (ment [[0; 2]; [1; 1]] 1 0) with 1 in K1; change (ment [[0; 2]; [1; 1]] 1 1) with 1 in K1.
      destruct i as [|[|i]]; [lra|lra|lia].
  - apply (C60_fails_only_on_singular 2).
    + split; [reflexivity|]; intros [|[|i]] Hi; try reflexivity; lia.
    + exists [2; -1]; split; [reflexivity|]; split; [exists 0%nat; split; [lia|cbn; lra]|].
      intros [|[|i]] Hi; try lia; unfold app, ment, vent; cbn; lra.
Qed.

(** ** The update formulas: a change of rank one

    All the formulas are [X - (X s - y) w^T / (w.s)] for some direction [w]. *)
Definition rank_one_update (n : nat) (X X' : mat R) (s y : vec R) (w : nat -> R) : Prop :=
  forall i j, (i < n)%nat -> (j < n)%nat ->
  ment X' i j = ment X i j
    - (app n X s i - vent y i) * w j / rsum n (fun k => w k * vent s k).

Lemma len_defect n X (s y : vec R) : is_mat n X -> length s = n -> length y = n ->
  length (defect X s y) = n.
Proof. intros M L1 L2; apply len_sub; [apply len_mat_vec, M|exact L2]. Qed.
Lemma ent_defect n X (s y : vec R) i : is_mat n X -> length s = n -> length y = n ->
  (i < n)%nat -> vent (defect X s y) i = app n X s i - vent y i.
Proof.
  intros M L1 L2 Hi; unfold defect; rewrite (ent_sub n) by (try apply len_mat_vec; assumption).
  rewrite (ent_mat_vec n) by assumption; reflexivity.
Qed.

(** [X - d w^T / a], and [X - (d c^T) B / a]. *)
Lemma update_outer n X (s y w : vec R) a : is_mat n X -> length s = n -> length y = n ->
  length w = n ->
  let X' := mat_sub X (mat_div (outer (defect X s y) w) a) in
  is_mat n X' /\ forall i j, (i < n)%nat -> (j < n)%nat ->
    ment X' i j = ment X i j - (app n X s i - vent y i) * vent w j / a.
Proof.
  intros M Ls Ly Lw; cbn zeta.
  pose proof (len_defect n X s y M Ls Ly) as Ld.
  pose proof (is_mat_outer n _ w Ld Lw) as MO; pose proof (is_mat_div n _ a MO) as MD.
  split; [apply is_mat_sub; assumption|].
  intros i j Hi Hj; rewrite (ent_msub n), (ent_mdiv n), (ent_outer n) by assumption.
  rewrite (ent_defect n) by assumption; reflexivity.
Qed.

Lemma update_outer_mul n X B (s y c : vec R) a : is_mat n X -> is_mat n B -> length s = n ->
  length y = n -> length c = n ->
  let X' := mat_sub X (mat_div (mat_mul (outer (defect X s y) c) B) a) in
  is_mat n X' /\ forall i j, (i < n)%nat -> (j < n)%nat ->
    ment X' i j = ment X i j - (app n X s i - vent y i) * appT n c B j / a.
Proof.
  intros M MB Ls Ly Lc; cbn zeta.
  pose proof (len_defect n X s y M Ls Ly) as Ld.
  pose proof (is_mat_outer n _ c Ld Lc) as MO; pose proof (is_mat_mul n _ B MO MB) as MM.
  pose proof (is_mat_div n _ a MM) as MD.
  split; [apply is_mat_sub; assumption|].
  intros i j Hi Hj; rewrite (ent_msub n), (ent_mdiv n), (ent_mul n) by assumption.
  rewrite (rsum_ext n _ (fun k => (app n X s i - vent y i) * (vent c k * ment B k j))).
  - rewrite rsum_scal_l; reflexivity.
  - intros k Hk; rewrite (ent_outer n), (ent_defect n) by assumption; lra.
Qed.

(** The direction [w] of each method. [X] is the jacobian (its inverse) in the
    jacobian (inverse) forms. *)
Definition direction_jac (n : nat) (u : update_method) (J H : mat R) (s y c : vec R)
  (j : nat) : R :=
  match u with
  | BroydenFirstMethod => vent s j
  | BroydenSecondMethod => appT n y J j
  | GreenstadtFirstMethod => appT n c J j
  | GreenstadtSecondMethod => app n H y j
  end.
Definition direction_inv (n : nat) (u : update_method) (H : mat R) (s y c : vec R)
  (j : nat) : R :=
  match u with
  | BroydenFirstMethod => appT n s H j
  | BroydenSecondMethod => vent y j
  | GreenstadtFirstMethod => vent c j
  | GreenstadtSecondMethod => rsum n (fun k => ment H k j * app n H y k)
  end.

(** What [approximate_jacobian] computes. *)
Theorem approximate_jacobian_rank_one : forall n u (jm jm' : jacobian_matrix R) J H s y c b,
  jm_matrix jm = Some J -> square n J ->
  (u = GreenstadtSecondMethod -> jm_inverse jm = Some H /\ square n H) ->
  length s = n -> length y = n -> length c = n ->
  approximate_jacobian jm u s y c = Ret (jm', b) ->
  exists J', square n J' /\ rank_one_update n J J' s y (direction_jac n u J H s y c) /\
    match try_inverse J' with
    | Some H' => b = true /\ jm_matrix jm' = Some J' /\ jm_inverse jm' = Some H'
    | None => b = false
    end.
Proof.
  intros n u jm jm' J H s y c b EJ SJ EH Ls Ly Lc E.
  unfold approximate_jacobian in E.
  assert (FIN : forall J', Ret (update_jacobian_with_approximated_value jm J') = Ret (jm', b) ->
    match try_inverse J' with
    | Some H' => b = true /\ jm_matrix jm' = Some J' /\ jm_inverse jm' = Some H'
    | None => b = false
    end).
  { intros J' Q; injection Q as Q; unfold update_jacobian_with_approximated_value, update_jacobian in Q.
    destruct (try_inverse J'); injection Q as <- <-; auto. }
  assert (DT : forall (c : vec R), length c = n ->
            dot (vec_mat c J) s = rsum n (fun k => appT n c J k * vent s k)).
  { intros c0 L0; rewrite (dot_rsum n); [|apply len_vec_mat, SJ|exact Ls].
    apply rsum_ext; intros k Hk; rewrite (ent_vec_mat n) by assumption; reflexivity. }
  destruct u.
  - rewrite EJ in E; cbn [unwrap bind] in E.
    destruct (same_size J s y s); [|discriminate]; cbn [guard_shape bind] in E.
    eexists; split; [|split; [|apply FIN, E]]; unfold broyden_first_jac.
    + apply (update_outer n J s y s); assumption.
    + intros i j Hi Hj.
      rewrite (proj2 (update_outer n J s y s _ SJ Ls Ly Ls) i j Hi Hj).
      unfold norm_squared; rewrite (dot_rsum n) by assumption; reflexivity.
  - rewrite EJ in E; cbn [unwrap bind] in E.
    destruct (same_size J s y y); [|discriminate]; cbn [guard_shape bind] in E.
    eexists; split; [|split; [|apply FIN, E]]; unfold broyden_second_jac.
    + apply (update_outer_mul n J J s y y); assumption.
    + intros i j Hi Hj.
      rewrite (proj2 (update_outer_mul n J J s y y _ SJ SJ Ls Ly Ly) i j Hi Hj).
      rewrite (DT y Ly); reflexivity.
  - rewrite EJ in E; cbn [unwrap bind] in E.
    destruct (same_size J s y c); [|discriminate]; cbn [guard_shape bind] in E.
    eexists; split; [|split; [|apply FIN, E]]; unfold quasi_method_jac.
    + apply (update_outer_mul n J J s y c); assumption.
    + intros i j Hi Hj.
      rewrite (proj2 (update_outer_mul n J J s y c _ SJ SJ Ls Ly Lc) i j Hi Hj).
      rewrite (DT c Lc); reflexivity.
  - destruct (EH eq_refl) as [EH1 SH].
    rewrite EH1, EJ in E; cbn [unwrap bind] in E.
    unfold mat_vec_chk in E.
    rewrite (proj1 SH), Ly, Nat.eqb_refl in E; cbn [bind] in E.
    pose proof (len_mat_vec n H y SH) as Lh.
    destruct (same_size J s y (mat_vec H y)); [|discriminate]; cbn [guard_shape bind] in E.
    eexists; split; [|split; [|apply FIN, E]]; unfold greenstadt_second_jac.
    + apply (update_outer n J s y (mat_vec H y)); assumption.
    + intros i j Hi Hj.
      rewrite (proj2 (update_outer n J s y (mat_vec H y) _ SJ Ls Ly Lh) i j Hi Hj).
      rewrite (dot_rsum n) by assumption.
      rewrite (ent_mat_vec n) by assumption; unfold direction_jac.
      do 2 f_equal; apply rsum_ext; intros k Hk; rewrite (ent_mat_vec n) by assumption; reflexivity.
Qed.

(** What [approximate_inv_jacobian] computes: the roles of [s] and [y] are
    exchanged. *)
Theorem approximate_inv_rank_one : forall n u (jm jm' : jacobian_matrix R) H s y c,
  jm_inverse jm = Some H -> square n H ->
  length s = n -> length y = n -> length c = n ->
  approximate_inv_jacobian jm u s y c = Ret jm' ->
  exists H', square n H' /\ jm_inverse jm' = Some H' /\
    rank_one_update n H H' y s (direction_inv n u H s y c).
Proof.
  intros n u jm jm' H s y c EH SH Ls Ly Lc E.
  unfold approximate_inv_jacobian in E; rewrite EH in E; cbn [unwrap bind] in E.
  destruct u.
  - destruct (same_size H s y s); [|discriminate]; cbn [guard_shape bind] in E.
    injection E as <-; eexists; split; [|split; [reflexivity|]]; unfold broyden_first_inv.
    + apply (update_outer_mul n H H y s s); assumption.
    + intros i j Hi Hj.
      rewrite (proj2 (update_outer_mul n H H y s s _ SH SH Ly Ls Ls) i j Hi Hj).
      rewrite (dot_rsum n); [|apply len_vec_mat, SH|exact Ly]; unfold direction_inv.
      do 2 f_equal; apply rsum_ext; intros k Hk; rewrite (ent_vec_mat n) by assumption; reflexivity.
  - destruct (same_size H s y y); [|discriminate]; cbn [guard_shape bind] in E.
    injection E as <-; eexists; split; [|split; [reflexivity|]]; unfold broyden_second_inv.
    + apply (update_outer n H y s y); assumption.
    + intros i j Hi Hj.
      rewrite (proj2 (update_outer n H y s y _ SH Ly Ls Ly) i j Hi Hj).
      unfold norm_squared; rewrite (dot_rsum n) by assumption; reflexivity.
  - destruct (same_size H s y c); [|discriminate]; cbn [guard_shape bind] in E.
    injection E as <-; eexists; split; [|split; [reflexivity|]]; unfold quasi_method_inv.
    + apply (update_outer n H y s c); assumption.
    + intros i j Hi Hj.
      rewrite (proj2 (update_outer n H y s c _ SH Ly Ls Lc) i j Hi Hj).
      rewrite (dot_rsum n) by assumption; reflexivity.
  - pose proof (is_mat_mul n (transpose H) H (is_mat_transpose n H SH) SH) as MT.
    unfold mat_vec_chk in E.
    rewrite (proj1 MT), Ly, Nat.eqb_refl in E; cbn [bind] in E.
    set (c2 := mat_vec (mat_mul (transpose H) H) y) in *.
    assert (L2 : length c2 = n) by apply (len_mat_vec n _ y MT).
    assert (E2 : forall j, (j < n)%nat ->
              vent c2 j = direction_inv n GreenstadtSecondMethod H s y c j).
    { intros j Hj; unfold c2; rewrite (ent_mat_vec n) by assumption; unfold direction_inv, app.
      rewrite (rsum_ext n _ (fun k => rsum n (fun l => ment H l j * (ment H l k * vent y k)))).
      - rewrite rsum_swap; apply rsum_ext; intros l Hl; rewrite rsum_scal_l; reflexivity.
      - intros k Hk; rewrite (ent_mul n); try assumption; [|apply is_mat_transpose, SH].
        rewrite <- rsum_scal_r; apply rsum_ext; intros l Hl.
        rewrite (ent_transpose n) by assumption; lra. }
    destruct (same_size H s y c2); [|discriminate]; cbn [guard_shape bind] in E.
    injection E as <-; eexists; split; [|split; [reflexivity|]]; unfold quasi_method_inv.
    + apply (update_outer n H y s c2); assumption.
    + intros i j Hi Hj.
      rewrite (proj2 (update_outer n H y s c2 _ SH Ly Ls L2) i j Hi Hj).
      rewrite (dot_rsum n), E2 by assumption.
      do 2 f_equal; apply rsum_ext; intros k Hk; rewrite E2 by assumption; reflexivity.
Qed.

(** ** C31: the secant equation *)
Lemma rank_one_secant n X X' s y w : rank_one_update n X X' s y w ->
  rsum n (fun k => w k * vent s k) <> 0 ->
  forall i, (i < n)%nat -> app n X' s i = vent y i.
Proof.
  intros U D i Hi; unfold app at 1; set (ws := rsum n _) in *.
  rewrite (rsum_ext n _ (fun k => ment X i k * vent s k
             - (app n X s i - vent y i) / ws * (w k * vent s k))).
  - rewrite rsum_minus, rsum_scal_l; fold ws; fold (app n X s i); field; exact D.
  - intros k Hk; rewrite (U i k Hi Hk); fold ws; field; exact D.
Qed.

Theorem C31_jacobian_secant : forall n u (jm jm' : jacobian_matrix R) J H s y c,
  jm_matrix jm = Some J -> square n J -> jm_inverse jm = Some H -> square n H ->
  length s = n -> length y = n -> length c = n ->
  rsum n (fun k => direction_jac n u J H s y c k * vent s k) <> 0 ->
  approximate_jacobian jm u s y c = Ret (jm', true) ->
  exists J', jm_matrix jm' = Some J' /\ square n J' /\
    forall i, (i < n)%nat -> app n J' s i = vent y i.
Proof.
  intros n u jm jm' J H s y c EJ SJ EH SH Ls Ly Lc D E.
  destruct (approximate_jacobian_rank_one n u jm jm' J H s y c true) as (J' & S' & U & K); auto.
  destruct (try_inverse J') as [H'|]; [|discriminate].
  destruct K as (_ & K & _); exists J'; split; [exact K|]; split; [exact S'|].
  exact (rank_one_secant n J J' s y _ U D).
Qed.
Print Assumptions C31_jacobian_secant.

Theorem C31_inverse_secant : forall n u (jm jm' : jacobian_matrix R) H s y c,
  jm_inverse jm = Some H -> square n H ->
  length s = n -> length y = n -> length c = n ->
  rsum n (fun k => direction_inv n u H s y c k * vent y k) <> 0 ->
  approximate_inv_jacobian jm u s y c = Ret jm' ->
  exists H', jm_inverse jm' = Some H' /\ square n H' /\
    forall i, (i < n)%nat -> app n H' y i = vent s i.
Proof.
  intros n u jm jm' H s y c EH SH Ls Ly Lc D E.
  destruct (approximate_inv_rank_one n u jm jm' H s y c) as (H' & S' & K & U); auto.
  exists H'; split; [exact K|]; split; [exact S'|].
  exact (rank_one_secant n H H' y s _ U D).
Qed.
Print Assumptions C31_inverse_secant.

(** ** C33: the least change *)

(** Unchanged on the vectors orthogonal to the direction. *)
Lemma rank_one_unchanged n X X' s y w v : rank_one_update n X X' s y w ->
  rsum n (fun k => w k * vent v k) = 0 ->
  forall i, (i < n)%nat -> app n X' v i = app n X v i.
Proof.
  intros U O i Hi; unfold app at 1; set (ws := rsum n (fun k => w k * vent s k)) in *.
  rewrite (rsum_ext n _ (fun k => ment X i k * vent v k
             - (app n X s i - vent y i) / ws * (w k * vent v k))).
  - rewrite rsum_minus, rsum_scal_l, O; fold (app n X v i); lra.
  - intros k Hk; rewrite (U i k Hi Hk); fold ws; unfold Rdiv; ring.
Qed.

(** The two conditions determine the update. *)
Lemma rank_one_unique n X X' Z (s y : vec R) w : length s = n ->
  rank_one_update n X X' s y w ->
  rsum n (fun k => w k * vent s k) <> 0 ->
  (forall i, (i < n)%nat -> app n Z s i = vent y i) ->
  (forall v, length v = n -> rsum n (fun k => w k * vent v k) = 0 ->
     forall i, (i < n)%nat -> app n Z v i = app n X v i) ->
  forall i j, (i < n)%nat -> (j < n)%nat -> ment Z i j = ment X' i j.
Proof.
  intros Ls U D ZS ZO i j Hi Hj; set (ws := rsum n (fun k => w k * vent s k)) in *.
  set (v := map (fun k => delta k j - w j / ws * vent s k) (seq 0 n)).
  assert (Lv : length v = n) by (unfold v; rewrite map_length; apply seq_length).
  assert (Ev : forall k, (k < n)%nat -> vent v k = delta k j - w j / ws * vent s k).
  { intros k Hk; unfold vent at 1, v; rewrite (nth_map_in _ _ _ _ 0%nat) by (rewrite seq_length; exact Hk).
    rewrite seq_nth by exact Hk; reflexivity. }
  assert (AV : forall A, app n A v i = ment A i j - w j / ws * app n A s i).
  { intros A; unfold app.
    rewrite (rsum_ext n _ (fun k => ment A i k * (if Nat.eqb k j then 1 else 0)
               - w j / ws * (ment A i k * vent s k))).
    - rewrite rsum_minus, rsum_scal_l, (rsum_delta_r n j (fun k => ment A i k)) by exact Hj; reflexivity.
    - intros k Hk; rewrite (Ev k Hk); unfold delta; ring. }
  assert (O : rsum n (fun k => w k * vent v k) = 0).
  { rewrite (rsum_ext n _ (fun k => w k * (if Nat.eqb k j then 1 else 0)
               - w j / ws * (w k * vent s k))).
    - rewrite rsum_minus, rsum_scal_l, (rsum_delta_r n j w) by exact Hj; fold ws; field; exact D.
    - intros k Hk; rewrite (Ev k Hk); unfold delta; ring. }
  pose proof (ZO v Lv O i Hi) as Q; rewrite !AV, (ZS i Hi) in Q.
  rewrite (U i j Hi Hj); fold ws.
  assert (R1 : (app n X s i - vent y i) * w j / ws = w j / ws * app n X s i - w j / ws * vent y i)
    by (field; exact D).
  lra.
Qed.

(** The direction of each method as the property names it. *)
Theorem C33_jacobian_least_change : forall n u (jm jm' : jacobian_matrix R) J H s y c,
  jm_matrix jm = Some J -> square n J -> jm_inverse jm = Some H -> square n H ->
  length s = n -> length y = n -> length c = n ->
  let w := direction_jac n u J H s y c in
  rsum n (fun k => w k * vent s k) <> 0 ->
  approximate_jacobian jm u s y c = Ret (jm', true) ->
  exists J', jm_matrix jm' = Some J' /\
    (forall v, length v = n -> rsum n (fun k => w k * vent v k) = 0 ->
       forall i, (i < n)%nat -> app n J' v i = app n J v i) /\
    (forall Z, square n Z -> (forall i, (i < n)%nat -> app n Z s i = vent y i) ->
       (forall v, length v = n -> rsum n (fun k => w k * vent v k) = 0 ->
          forall i, (i < n)%nat -> app n Z v i = app n J v i) -> Z = J').
Proof.
  intros n u jm jm' J H s y c EJ SJ EH SH Ls Ly Lc w D E.
  destruct (approximate_jacobian_rank_one n u jm jm' J H s y c true) as (J' & S' & U & K); auto.
  destruct (try_inverse J') as [H'|]; [|discriminate].
  destruct K as (_ & K & _); exists J'; split; [exact K|]; split.
  - intros v Lv O; exact (rank_one_unchanged n J J' s y w v U O).
  - intros Z SZ ZS ZO; apply (mat_ext _ _ n SZ S').
    exact (rank_one_unique n J J' Z s y w Ls U D ZS ZO).
Qed.
Print Assumptions C33_jacobian_least_change.

Theorem C33_inverse_least_change : forall n u (jm jm' : jacobian_matrix R) H s y c,
  jm_inverse jm = Some H -> square n H ->
  length s = n -> length y = n -> length c = n ->
  let w := direction_inv n u H s y c in
  rsum n (fun k => w k * vent y k) <> 0 ->
  approximate_inv_jacobian jm u s y c = Ret jm' ->
  exists H', jm_inverse jm' = Some H' /\
    (forall v, length v = n -> rsum n (fun k => w k * vent v k) = 0 ->
       forall i, (i < n)%nat -> app n H' v i = app n H v i) /\
    (forall Z, square n Z -> (forall i, (i < n)%nat -> app n Z y i = vent s i) ->
       (forall v, length v = n -> rsum n (fun k => w k * vent v k) = 0 ->
          forall i, (i < n)%nat -> app n Z v i = app n H v i) -> Z = H').
Proof.
  intros n u jm jm' H s y c EH SH Ls Ly Lc w D E.
  destruct (approximate_inv_rank_one n u jm jm' H s y c) as (H' & S' & K & U); auto.
  exists H'; split; [exact K|]; split.
  - intros v Lv O; exact (rank_one_unchanged n H H' y s w v U O).
  - intros Z SZ ZS ZO; apply (mat_ext _ _ n SZ S').
    exact (rank_one_unique n H H' Z y s w Ly U D ZS ZO).
Qed.
Print Assumptions C33_inverse_least_change.

(** For Broyden's first (second) method, the change is the smallest in the
    Frobenius norm among the matrices satisfying the secant equation. *)
Definition frobenius2 (n : nat) (A B : mat R) : R :=
  rsum n (fun i => rsum n (fun j => (ment A i j - ment B i j) * (ment A i j - ment B i j))).

Lemma rsum_le : forall n f g, (forall i, (i < n)%nat -> f i <= g i) -> rsum n f <= rsum n g.
Proof.
  induction n as [|n IH]; intros f g H; cbn [rsum]; [lra|].
  pose proof (H 0%nat ltac:(lia)); pose proof (IH (fun i => f (S i)) (fun i => g (S i))
    ltac:(intros; apply H; lia)); lra.
Qed.

Lemma cauchy_schwarz n (f g : nat -> R) : 
  rsum n (fun k => f k * g k) * rsum n (fun k => f k * g k) <=
  rsum n (fun k => f k * f k) * rsum n (fun k => g k * g k).
Proof.
  set (fg := rsum n (fun k => f k * g k)); set (ff := rsum n (fun k => f k * f k));
    set (gg := rsum n (fun k => g k * g k)).
  assert (FF : 0 <= ff) by (apply rsum_nonneg; intros; nra).
  assert (GG : 0 <= gg) by (apply rsum_nonneg; intros; nra).
  assert (Q : forall a b, 0 <= a * a * ff - 2 * a * b * fg + b * b * gg).
  { intros a b; replace (a * a * ff - 2 * a * b * fg + b * b * gg)
      with (rsum n (fun k => (a * f k - b * g k) * (a * f k - b * g k))).
    - apply rsum_nonneg; intros; apply Rle_0_sqr.
    - rewrite (rsum_ext n _ (fun k => (a * a * (f k * f k) - 2 * a * b * (f k * g k))
                                      + b * b * (g k * g k))) by (intros; ring).
      rewrite rsum_plus, rsum_minus, !rsum_scal_l; reflexivity. }
  destruct (Req_dec gg 0) as [Z|N].
  - destruct (Req_dec ff 0) as [Z'|N'].
    + pose proof (Q 1 1) as Q1; pose proof (Q 1 (-1)) as Q2; rewrite Z, Z' in Q1, Q2 |- *.
      assert (fg = 0) as -> by lra; lra.
    + pose proof (Q fg ff) as Q1; rewrite Z in Q1 |- *.
      assert (P : 0 < ff) by lra.
      replace (fg * fg * ff - 2 * fg * ff * fg + ff * ff * 0) with (- (fg * fg) * ff) in Q1 by ring.
      assert (0 <= - (fg * fg)) by (apply Rmult_le_reg_r with ff; [exact P|lra]); lra.
  - pose proof (Q gg fg) as Q1; assert (P : 0 < gg) by lra.
    replace (gg * gg * ff - 2 * gg * fg * fg + fg * fg * gg)
      with ((ff * gg - fg * fg) * gg) in Q1 by ring.
    assert (0 <= ff * gg - fg * fg) by (apply Rmult_le_reg_r with gg; [exact P|lra]); lra.
Qed.

Lemma frobenius_least n X X' Z (s y : vec R) : length s = n ->
  rank_one_update n X X' s y (vent s) -> inner n s s <> 0 ->
  (forall i, (i < n)%nat -> app n Z s i = vent y i) ->
  frobenius2 n X' X <= frobenius2 n Z X.
Proof.
  intros Ls U D ZS; unfold frobenius2; apply rsum_le; intros i Hi.
  set (ss := inner n s s) in *.
  assert (SP : 0 < ss).
  { assert (0 <= ss) by (apply rsum_nonneg; intros; nra); lra. }
  set (d := app n X s i - vent y i).
  rewrite (rsum_ext n _ (fun j => d * d / (ss * ss) * (vent s j * vent s j))).
  2: { intros j Hj; rewrite (U i j Hi Hj); fold d; fold ss.
       change (rsum n (fun k => vent s k * vent s k)) with ss; field; lra. }
  rewrite rsum_scal_l; change (rsum n (fun k => vent s k * vent s k)) with ss.
  pose proof (cauchy_schwarz n (fun j => ment Z i j - ment X i j) (vent s)) as CS; cbn beta in CS.
  change (rsum n (fun k => vent s k * vent s k)) with ss in CS.
  assert (E : rsum n (fun k => (ment Z i k - ment X i k) * vent s k) = - d).
  { rewrite (rsum_ext n _ (fun k => ment Z i k * vent s k - ment X i k * vent s k)) by (intros; ring).
    rewrite rsum_minus; fold (app n Z s i); fold (app n X s i); rewrite (ZS i Hi); unfold d; lra. }
  rewrite E in CS; set (zz := rsum n _) in CS |- *.
  replace (d * d / (ss * ss) * ss) with (d * d / ss) by (field; lra).
  apply Rmult_le_reg_r with ss; [exact SP|].
  replace (d * d / ss * ss) with (d * d) by (field; lra); lra.
Qed.

Theorem C33_broyden_frobenius : forall n (jm jm' : jacobian_matrix R) J H s y c Z,
  jm_matrix jm = Some J -> square n J -> jm_inverse jm = Some H -> square n H ->
  length s = n -> length y = n -> length c = n ->
  (approximate_jacobian jm BroydenFirstMethod s y c = Ret (jm', true) -> inner n s s <> 0 ->
   (forall i, (i < n)%nat -> app n Z s i = vent y i) ->
   exists J', jm_matrix jm' = Some J' /\ frobenius2 n J' J <= frobenius2 n Z J) /\
  (approximate_inv_jacobian jm BroydenSecondMethod s y c = Ret jm' -> inner n y y <> 0 ->
   (forall i, (i < n)%nat -> app n Z y i = vent s i) ->
   exists H', jm_inverse jm' = Some H' /\ frobenius2 n H' H <= frobenius2 n Z H).
Proof.
  intros n jm jm' J H s y c Z EJ SJ EH SH Ls Ly Lc; split; intros E D ZS.
  - destruct (approximate_jacobian_rank_one n BroydenFirstMethod jm jm' J H s y c true EJ SJ) as (J' & S' & U & K); auto.
    destruct (try_inverse J') as [H'|]; [|discriminate].
    destruct K as (_ & K & _); exists J'; split; [exact K|].
    exact (frobenius_least n J J' Z s y Ls U D ZS).
  - destruct (approximate_inv_rank_one n BroydenSecondMethod jm jm' H s y c EH SH) as (H' & S' & K & U); auto.
    exists H'; split; [exact K|].
    exact (frobenius_least n H H' Z y s Ly U D ZS).
Qed.
Print Assumptions C33_broyden_frobenius.

(** ** C32: the two forms agree *)
Lemma app_prod n A B v i : app n A (map (app n B v) (seq 0 n)) i =
  rsum n (fun k => prod n A B i k * vent v k).
Proof.
  unfold app at 1, prod.
  rewrite (rsum_ext n _ (fun k => rsum n (fun l => ment A i k * (ment B k l * vent v l)))).
  - rewrite rsum_swap; apply rsum_ext; intros l Hl; rewrite <- rsum_scal_r.
    apply rsum_ext; intros; ring.
  - intros k Hk; unfold vent at 1; rewrite (nth_map_in _ _ _ _ 0%nat) by (rewrite seq_length; exact Hk).
    rewrite seq_nth by exact Hk; cbn [plus]; unfold app; rewrite rsum_scal_l; reflexivity.
Qed.

(** Sherman-Morrison-Householder. [wJ] is the direction of the jacobian form
    and [wH] that of the inverse form; [wJ = wH J]. *)
Lemma householder n J H J' H' s y (wJ wH : nat -> R) :
  inverse_of n J H ->
  rank_one_update n J J' s y wJ -> rank_one_update n H H' y s wH ->
  (forall j, (j < n)%nat -> wJ j = rsum n (fun k => wH k * ment J k j)) ->
  rsum n (fun k => wJ k * vent s k) <> 0 -> rsum n (fun k => wH k * vent y k) <> 0 ->
  forall i j, (i < n)%nat -> (j < n)%nat -> prod n J' H' i j = delta i j.
Proof.
  intros INV UJ UH W DJ DH i j Hi Hj.
  set (ws := rsum n (fun k => wJ k * vent s k)) in *.
  set (wy := rsum n (fun k => wH k * vent y k)) in *.
  set (d := app n J s i - vent y i).
  (* J (H y - s) = y - J s *)
  assert (A1 : rsum n (fun k => ment J i k * (app n H y k - vent s k)) = - d).
  { rewrite (rsum_ext n _ (fun k => ment J i k * app n H y k - ment J i k * vent s k)) by (intros; ring).
    rewrite rsum_minus; fold (app n J s i).
    replace (rsum n (fun k => ment J i k * app n H y k)) with (vent y i); [unfold d; lra|].
    unfold app; rewrite (rsum_ext n (fun k => ment J i k * rsum n _)
      (fun k => rsum n (fun l => ment J i k * ment H k l * vent y l))).
    - rewrite rsum_swap.
      rewrite (rsum_ext n _ (fun l => prod n J H i l * vent y l)).
      + rewrite (rsum_ext n _ (fun l => (if Nat.eqb l i then 1 else 0) * vent y l)).
        * symmetry; apply (rsum_delta n i (vent y)), Hi.
        * intros l Hl; destruct (INV i l Hi Hl) as [-> _]; unfold delta; rewrite Nat.eqb_sym; reflexivity.
      + intros l Hl; rewrite rsum_scal_r; reflexivity.
    - intros k Hk; rewrite <- rsum_scal_l; apply rsum_ext; intros; ring. }
  (* wJ H = wH *)
  assert (A2 : forall l, (l < n)%nat -> rsum n (fun k => wJ k * ment H k l) = wH l).
  { intros l Hl.
    rewrite (rsum_ext n _ (fun k => rsum n (fun m => wH m * (ment J m k * ment H k l)))).
    - rewrite rsum_swap.
      rewrite (rsum_ext n _ (fun m => wH m * (if Nat.eqb m l then 1 else 0))).
      + apply (rsum_delta_r n l wH), Hl.
      + intros m Hm; rewrite rsum_scal_l; f_equal; exact (proj1 (INV m l Hm Hl)).
    - intros k Hk; rewrite (W k Hk), <- rsum_scal_r; apply rsum_ext; intros; ring. }
  (* wJ (H y - s) = wy - ws *)
  assert (A3 : rsum n (fun k => wJ k * (app n H y k - vent s k)) = wy - ws).
  { rewrite (rsum_ext n _ (fun k => wJ k * app n H y k - wJ k * vent s k)) by (intros; ring).
    rewrite rsum_minus; fold ws; f_equal; unfold app.
    rewrite (rsum_ext n _ (fun k => rsum n (fun l => wJ k * ment H k l * vent y l))).
    - rewrite rsum_swap; apply rsum_ext; intros l Hl; rewrite rsum_scal_r, (A2 l Hl); reflexivity.
    - intros k Hk; rewrite <- rsum_scal_l; apply rsum_ext; intros; ring. }
  unfold prod.
  rewrite (rsum_ext n _ (fun k =>
    ((ment J i k * ment H k j - wH j / wy * (ment J i k * (app n H y k - vent s k)))
     - d / ws * (wJ k * ment H k j))
     + d * wH j / (ws * wy) * (wJ k * (app n H y k - vent s k)))).
  - rewrite rsum_plus, !rsum_minus, !rsum_scal_l, A1, A3, (A2 j Hj).
    fold (prod n J H i j); rewrite (proj1 (INV i j Hi Hj)); field; auto.
  - intros k Hk; rewrite (UJ i k Hi Hk), (UH k j Hk Hj); fold ws; fold wy; fold d; field; auto.
Qed.

Lemma directions_match n u J H (s y c : vec R) : inverse_of n J H ->
  forall j, (j < n)%nat -> direction_jac n u J H s y c j =
    rsum n (fun k => direction_inv n u H s y c k * ment J k j).
Proof.
  intros INV j Hj; destruct u; cbn [direction_jac direction_inv]; unfold appT; try reflexivity.
  - rewrite (rsum_ext n _ (fun k => rsum n (fun l => vent s l * (ment H l k * ment J k j)))).
    + rewrite rsum_swap.
      rewrite (rsum_ext n _ (fun l => vent s l * (if Nat.eqb l j then 1 else 0))).
      * symmetry; apply (rsum_delta_r n j (vent s)), Hj.
      * intros l Hl; rewrite rsum_scal_l; f_equal; exact (proj2 (INV l j Hl Hj)).
    + intros k Hk; rewrite <- rsum_scal_r; apply rsum_ext; intros; ring.
  - rewrite (rsum_ext n _ (fun k => rsum n (fun l => app n H y l * (ment H l k * ment J k j)))).
    + rewrite rsum_swap.
      rewrite (rsum_ext n _ (fun l => app n H y l * (if Nat.eqb l j then 1 else 0))).
      * symmetry; apply (rsum_delta_r n j (app n H y)), Hj.
      * intros l Hl; rewrite rsum_scal_l; f_equal; exact (proj2 (INV l j Hl Hj)).
    + intros k Hk; rewrite <- rsum_scal_r; apply rsum_ext; intros; ring.
Qed.

(** After one update from mutually inverse matrices, both variants hold the
    same inverse; the jacobian form never fails then. *)
Theorem C32_forms_agree : forall n u (jm jm1 jm2 : jacobian_matrix R) J H s y c b,
  jm_matrix jm = Some J -> square n J -> jm_inverse jm = Some H -> square n H ->
  inverse_of n J H ->
  length s = n -> length y = n -> length c = n ->
  rsum n (fun k => direction_jac n u J H s y c k * vent s k) <> 0 ->
  rsum n (fun k => direction_inv n u H s y c k * vent y k) <> 0 ->
  approximate_jacobian jm u s y c = Ret (jm1, b) ->
  approximate_inv_jacobian jm u s y c = Ret jm2 ->
  b = true /\ exists J' H', jm_matrix jm1 = Some J' /\
    jm_inverse jm1 = Some H' /\ jm_inverse jm2 = Some H' /\ inverse_of n J' H'.
Proof.
  intros n u jm jm1 jm2 J H s y c b EJ SJ EH SH INV Ls Ly Lc DJ DH E1 E2.
  destruct (approximate_jacobian_rank_one n u jm jm1 J H s y c b) as (J' & S1 & U1 & K1); auto.
  destruct (approximate_inv_rank_one n u jm jm2 H s y c) as (H' & S2 & K2 & U2); auto.
  pose proof (householder n J H J' H' s y _ _ INV U1 U2 (directions_match n u J H s y c INV) DJ DH) as P.
  assert (E : mat_mul J' H' = identity n).
  { apply (mat_ext _ _ n); [apply is_mat_mul; assumption|apply is_mat_identity|].
    intros i j Hi Hj; rewrite (ent_mul n), (ent_identity n) by assumption; apply P; assumption. }
  (* H' J' = I by the same computation on the inverses *)
  assert (INV' : inverse_of n H J).
  { intros i j Hi Hj; destruct (INV i j Hi Hj); auto. }
  assert (W' : forall j, (j < n)%nat -> direction_inv n u H s y c j =
            rsum n (fun k => direction_jac n u J H s y c k * ment H k j)).
  { intros j Hj; symmetry.
    rewrite (rsum_ext n _ (fun k => rsum n (fun l => direction_inv n u H s y c l * (ment J l k * ment H k j)))).
    - rewrite rsum_swap.
      rewrite (rsum_ext n _ (fun l => direction_inv n u H s y c l * (if Nat.eqb l j then 1 else 0))).
      + apply (rsum_delta_r n j (direction_inv n u H s y c)), Hj.
      + intros l Hl; rewrite rsum_scal_l; f_equal; exact (proj1 (INV l j Hl Hj)).
    - intros k Hk; rewrite (directions_match n u J H s y c INV k Hk), <- rsum_scal_r.
      apply rsum_ext; intros; ring. }
  pose proof (householder n H J H' J' y s _ _ INV' U2 U1 W' DH DJ) as P'.
  assert (I' : inverse_of n J' H') by (intros i j Hi Hj; split; [apply P|apply P']; assumption).
  destruct (inverse_of_mul n J' H' S1 S2 I') as [EA EB].
  destruct (try_inverse J') as [H1|] eqn:T.
  - destruct K1 as (-> & M1 & M2).
    destruct (lu_inverse_exact n J' H1 S1 T) as (SH1 & _ & L2).
    assert (EQ : H1 = H') by (apply (inverse_unique n J'); assumption); subst H1.
    split; [reflexivity|]; exists J', H'; auto.
  - exfalso; apply (C60_fails_only_on_singular n J' S1) in T.
    destruct T as (x & Lx & (i & Hi & Nz) & K); apply Nz.
    rewrite <- (rsum_delta n i (vent x) Hi).
    rewrite (rsum_ext n _ (fun k => prod n H' J' i k * vent x k)).
    2: { intros k Hk; destruct (I' i k Hi Hk) as [_ ->]; unfold delta; rewrite Nat.eqb_sym; reflexivity. }
    rewrite <- app_prod; unfold app at 1; apply rsum_zero; intros k Hk.
    unfold vent; rewrite (nth_map_in _ _ _ _ 0%nat) by (rewrite seq_length; exact Hk).
    rewrite seq_nth by exact Hk; cbn [plus]; rewrite (K k Hk); ring.
Qed.
Print Assumptions C32_forms_agree.

(** When the denominator of the inverse form vanishes, the jacobian form
    becomes singular and the failure is reported. *)
Theorem C32_zero_denominator_is_reported : forall n u (jm jm1 : jacobian_matrix R) J H s y c b,
  jm_matrix jm = Some J -> square n J -> jm_inverse jm = Some H -> square n H ->
  inverse_of n J H ->
  length s = n -> length y = n -> length c = n ->
  rsum n (fun k => direction_jac n u J H s y c k * vent s k) <> 0 ->
  rsum n (fun k => direction_inv n u H s y c k * vent y k) = 0 ->
  approximate_jacobian jm u s y c = Ret (jm1, b) -> b = false.
Proof.
  intros n u jm jm1 J H s y c b EJ SJ EH SH INV Ls Ly Lc DJ DH E1.
  destruct (approximate_jacobian_rank_one n u jm jm1 J H s y c b) as (J' & S1 & U1 & K1); auto.
  destruct (try_inverse J') as [H1|] eqn:T; [exfalso|exact K1].
  assert (SG : singular n J').
  2: { apply (C60_fails_only_on_singular n J' S1) in SG; congruence. }
  clear T K1 E1.
  set (wJ := direction_jac n u J H s y c) in *; set (wH := direction_inv n u H s y c) in *.
  set (v := map (fun k => app n H y k - vent s k) (seq 0 n)).
  assert (Ev : forall k, (k < n)%nat -> vent v k = app n H y k - vent s k).
  { intros k Hk; unfold vent at 1, v; rewrite (nth_map_in _ _ _ _ 0%nat) by (rewrite seq_length; exact Hk).
    rewrite seq_nth by exact Hk; reflexivity. }
  (* J (H y) = y *)
  assert (JHy : forall i, (i < n)%nat -> rsum n (fun k => ment J i k * app n H y k) = vent y i).
  { intros i Hi; unfold app.
    rewrite (rsum_ext n (fun k => ment J i k * rsum n _)
      (fun k => rsum n (fun l => ment J i k * ment H k l * vent y l))).
    - rewrite rsum_swap.
      rewrite (rsum_ext n _ (fun l => (if Nat.eqb l i then 1 else 0) * vent y l)).
      + apply (rsum_delta n i (vent y)), Hi.
      + intros l Hl; rewrite rsum_scal_r; f_equal; rewrite Nat.eqb_sym; exact (proj1 (INV i l Hi Hl)).
    - intros k Hk; rewrite <- rsum_scal_l; apply rsum_ext; intros; ring. }
  assert (WHy : rsum n (fun k => wJ k * app n H y k) = 0).
  { rewrite <- DH.
    rewrite (rsum_ext n _ (fun k => rsum n (fun m => wH m * (ment J m k * app n H y k)))).
    - rewrite rsum_swap; apply rsum_ext; intros m Hm; rewrite rsum_scal_l, (JHy m Hm); reflexivity.
    - intros k Hk; unfold wJ, wH; rewrite (directions_match n u J H s y c INV k Hk), <- rsum_scal_r.
      apply rsum_ext; intros; ring. }
  set (ws := rsum n (fun k => wJ k * vent s k)) in *.
  assert (WV : rsum n (fun k => wJ k * vent v k) = - ws).
  { rewrite (rsum_ext n _ (fun k => wJ k * app n H y k - wJ k * vent s k)).
    - rewrite rsum_minus, WHy; fold ws; lra.
    - intros k Hk; rewrite (Ev k Hk); ring. }
  exists v; split; [unfold v; rewrite map_length; apply seq_length|]; split.
  - destruct (Classical_Prop.classic (exists i, (i < n)%nat /\ vent v i <> 0)) as [P|P]; [exact P|exfalso].
    apply DJ; assert (Z : rsum n (fun k => wJ k * vent v k) = 0).
    { apply rsum_zero; intros k Hk; destruct (Req_dec (vent v k) 0) as [->|N]; [ring|].
      exfalso; apply P; exists k; auto. }
    lra.
  - intros i Hi; unfold app.
    rewrite (rsum_ext n _ (fun k => (ment J i k * app n H y k - ment J i k * vent s k)
               - (app n J s i - vent y i) / ws * (wJ k * vent v k))).
    + rewrite !rsum_minus, rsum_scal_l, WV, (JHy i Hi); fold (app n J s i); field; exact DJ.
    + intros k Hk; rewrite (U1 i k Hi Hk); fold ws; rewrite (Ev k Hk); field; exact DJ.
Qed.
Print Assumptions C32_zero_denominator_is_reported.

(** ** A concrete system of size two, with the four methods *)
Definition J2 : mat R := [[2; 1]; [1; 1]].
Definition H2 : mat R := [[1; -1]; [-1; 2]].
Definition jm2 : jacobian_matrix R := mkJacobianMatrix (Some J2) (Some H2) false false.

Lemma square_J2 : square 2 J2.
Proof. split; [reflexivity|]; intros [|[|i]] Hi; try reflexivity; lia. Qed.
Lemma square_H2 : square 2 H2.
Proof. split; [reflexivity|]; intros [|[|i]] Hi; try reflexivity; lia. Qed.
Lemma inverse_J2 : inverse_of 2 J2 H2.
Proof.
  intros [|[|i]] [|[|j]] Hi Hj; try lia; unfold prod, delta, ment, vent; cbn; split; lra.
Qed.
Lemma denominators_J2 u :
  rsum 2 (fun k => direction_jac 2 u J2 H2 [1; 0] [3; 1] [1; 1] k * vent [1; 0] k) <> 0 /\
  rsum 2 (fun k => direction_inv 2 u H2 [1; 0] [3; 1] [1; 1] k * vent [3; 1] k) <> 0.
Proof.
  destruct u; unfold direction_jac, direction_inv, app, appT, ment, vent; cbn; split; lra.
Qed.

Example C31_C32_C33_case : forall u, exists jm1 jm2' J' H',
  approximate_jacobian jm2 u [1; 0] [3; 1] [1; 1] = Ret (jm1, true) /\
  approximate_inv_jacobian jm2 u [1; 0] [3; 1] [1; 1] = Ret jm2' /\
  jm_matrix jm1 = Some J' /\ jm_inverse jm1 = Some H' /\ jm_inverse jm2' = Some H' /\
  app 2 J' [1; 0] 0 = 3 /\ app 2 J' [1; 0] 1 = 1 /\ app 2 J2 [1; 0] 0 = 2 /\
  app 2 H' [3; 1] 0 = 1 /\ app 2 H' [3; 1] 1 = 0.
Proof.
  intros u; destruct (denominators_J2 u) as [D1 D2].
  assert (E1 : exists p, approximate_jacobian jm2 u [1; 0] [3; 1] [1; 1] = Ret p)
    by (destruct u; eexists; reflexivity).
  assert (E2 : exists p, approximate_inv_jacobian jm2 u [1; 0] [3; 1] [1; 1] = Ret p)
    by (destruct u; eexists; reflexivity).
  destruct E1 as ([jm1 b] & E1); destruct E2 as (jm2' & E2).
  destruct (C32_forms_agree 2 u jm2 jm1 jm2' J2 H2 [1; 0] [3; 1] [1; 1] b eq_refl square_J2
              eq_refl square_H2 inverse_J2 eq_refl eq_refl eq_refl D1 D2 E1 E2)
    as (-> & J' & H' & A & B & C & I).
  destruct (C31_jacobian_secant 2 u jm2 jm1 J2 H2 [1; 0] [3; 1] [1; 1] eq_refl square_J2
              eq_refl square_H2 eq_refl eq_refl eq_refl D1 E1) as (J1 & A1 & _ & K1).
  destruct (C31_inverse_secant 2 u jm2 jm2' H2 [1; 0] [3; 1] [1; 1]
              eq_refl square_H2 eq_refl eq_refl eq_refl D2 E2) as (H1 & B1 & _ & K2).
  assert (J1 = J') as -> by congruence; assert (H1 = H') as -> by congruence.
  exists jm1, jm2', J', H'; repeat split; auto.
  - apply K1; lia.
  - apply (K1 1%nat); lia.
  - unfold app, ment, vent; cbn; lra.
  - apply K2; lia.
  - apply (K2 1%nat); lia.
Qed.
Print Assumptions C31_C32_C33_case.

(** The denominator of the inverse form can vanish while that of the jacobian
    form does not: [s = (1,0)], [y = (1,1)], [s^T H y = 0]. *)
Example C32_zero_denominator_case :
  exists jm1, approximate_jacobian jm2 BroydenFirstMethod [1; 0] [1; 1] [1; 1] = Ret (jm1, false).
Proof.
  assert (E1 : exists p, approximate_jacobian jm2 BroydenFirstMethod [1; 0] [1; 1] [1; 1] = Ret p)
    by (eexists; reflexivity).
  destruct E1 as ([jm1 b] & E1); exists jm1.
  rewrite (C32_zero_denominator_is_reported 2 BroydenFirstMethod jm2 jm1 J2 H2 [1; 0] [1; 1] [1; 1] b
    eq_refl square_J2 eq_refl square_H2 inverse_J2 eq_refl eq_refl eq_refl) in E1; [exact E1| | |exact E1];
    unfold direction_jac, direction_inv, app, appT, ment, vent; cbn; lra.
Qed.
