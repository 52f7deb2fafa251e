(** C72: the way the equations and the unknowns are written does not matter to
    Newton's method; it does to the quasi-Newton methods. *)
From Coq Require Import Reals Lra.
From Verif Require Import Base Num Linalg Residuals Iteratives UserModel Jacobian Solver F64 Samples
  RNum LuFacts XR PropsQuasi PropsFD ExactFacts ExactRun PropsExact Props1d.
Open Scope R_scope.

(** Entry [i] of [X v] for a vector given by its entries. *)
Definition ap (n : nat) (X : mat R) (v : nat -> R) (i : nat) : R :=
  rsum n (fun k => ment X i k * v k).

Lemma ap_ext n X u v i : (forall k, (k < n)%nat -> u k = v k) -> ap n X u i = ap n X v i.
Proof. intros Q; apply rsum_ext; intros k Hk; rewrite Q by exact Hk; reflexivity. Qed.

Lemma ap_zero n X u i : (forall k, (k < n)%nat -> u k = 0) -> ap n X u i = 0.
Proof. intros Q; apply rsum_zero; intros k Hk; rewrite Q by exact Hk; lra. Qed.

Lemma ap_ap n X Y v i : ap n X (ap n Y v) i = rsum n (fun j => prod n X Y i j * v j).
Proof.
  unfold ap, prod.
  rewrite (rsum_ext n _ (fun k => rsum n (fun j => ment X i k * (ment Y k j * v j)))).
  2: { intros k _; rewrite rsum_scal_l; reflexivity. }
  rewrite rsum_swap; apply rsum_ext; intros j _; rewrite <- rsum_scal_r.
  apply rsum_ext; intros k _; ring.
Qed.

Lemma inverse_ap n X Y v i : inverse_of n X Y -> (i < n)%nat ->
  ap n X (ap n Y v) i = v i /\ ap n Y (ap n X v) i = v i.
Proof.
  intros I Hi; rewrite !ap_ap; split.
  - rewrite (rsum_ext n _ (fun j => (if Nat.eqb j i then 1 else 0) * v j)).
    + apply rsum_delta; exact Hi.
    + intros j Hj; destruct (I i j Hi Hj) as [-> _]; unfold delta; rewrite Nat.eqb_sym; reflexivity.
  - rewrite (rsum_ext n _ (fun j => (if Nat.eqb j i then 1 else 0) * v j)).
    + apply rsum_delta; exact Hi.
    + intros j Hj; destruct (I i j Hi Hj) as [_ ->]; unfold delta; rewrite Nat.eqb_sym; reflexivity.
Qed.

(** The first step of a path. *)
Lemma path_first n J f e t k x y : newton_path n J f e t (S k) x y ->
  exists x' H, e x > t /\ square n H /\ inverse_of n (J x) H /\ length x' = n /\
    (forall i, (i < n)%nat -> vent x' i = vent x i - app n H (f x) i) /\
    newton_path n J f e t k x' y.
Proof.
  intros P; remember (S k) as m eqn:EM; destruct P as [|m' x x' y H T S1 I L E P]; [discriminate|].
  injection EM as ->; exists x', H; auto 10.
Qed.
Lemma path_none n J f e t x y : newton_path n J f e t O x y -> y = x.
Proof. intros P; remember O as m eqn:EM; destruct P; [reflexivity|discriminate]. Qed.

(** The unknowns [x] written with the unknowns [z]: [x = A z + b]. *)
Definition change (n : nat) (A : mat R) (b z x : vec R) : Prop :=
  length z = n /\ length x = n /\
  forall i, (i < n)%nat -> vent x i = app n A z i + vent b i.

Section Change.
Context (n : nat) (A Ai : mat R) (b : vec R) (IA : inverse_of n A Ai).
(** The equations combined by [comb]. *)
Context (comb : (nat -> R) -> nat -> R)
  (comb_ext : forall u v, (forall k, (k < n)%nat -> u k = v k) ->
     forall i, (i < n)%nat -> comb u i = comb v i)
  (comb_inj : forall u v, (forall i, (i < n)%nat -> comb u i = comb v i) ->
     forall k, (k < n)%nat -> u k = v k)
  (comb_zero : forall u, (forall k, (k < n)%nat -> u k = 0) ->
     forall i, (i < n)%nat -> comb u i = 0).
Context (f1 f2 : vec R -> vec R) (J1 J2 : vec R -> mat R)
  (HF : forall z x, change n A b z x -> forall i, (i < n)%nat ->
     vent (f2 z) i = comb (vent (f1 x)) i)
  (HJ : forall z x, change n A b z x -> forall w i, (i < n)%nat ->
     ap n (J2 z) w i = comb (ap n (J1 x) (ap n A w)) i).

(** One step. *)
Lemma step_change z x H1 H2 z' x' : change n A b z x ->
  inverse_of n (J1 x) H1 -> inverse_of n (J2 z) H2 -> length z' = n -> length x' = n ->
  (forall i, (i < n)%nat -> vent x' i = vent x i - app n H1 (f1 x) i) ->
  (forall i, (i < n)%nat -> vent z' i = vent z i - app n H2 (f2 z) i) ->
  change n A b z' x'.
Proof.
  intros C I1 I2 Lz Lx E1 E2; split; [exact Lz|]; split; [exact Lx|]; intros i Hi.
  set (w := ap n H2 (vent (f2 z))).
  assert (Q1 : forall k, (k < n)%nat -> ap n (J1 x) (ap n A w) k = vent (f1 x) k).
  { apply comb_inj; intros k Hk; rewrite <- (HJ z x C w k Hk), <- (HF z x C k Hk).
    apply (inverse_ap n _ _ _ k I2 Hk). }
  assert (Q2 : ap n A w i = app n H1 (f1 x) i).
  { destruct (inverse_ap n _ _ (ap n A w) i I1 Hi) as [_ <-]; apply ap_ext; exact Q1. }
  rewrite E1, <- Q2 by exact Hi; destruct C as (_ & _ & ->); [|exact Hi].
  assert (Q3 : app n A z' i = app n A z i - ap n A w i).
  { unfold app, ap; rewrite <- rsum_minus; apply rsum_ext; intros k Hk; rewrite E2 by exact Hk.
    change (app n H2 (f2 z) k) with (w k); ring. }
  rewrite Q3; ring.
Qed.

(** Singular jacobians correspond. *)
Lemma regular_change z x H2 : change n A b z x -> inverse_of n (J2 z) H2 -> ~ singular n (J1 x).
Proof.
  intros C I2 (v & Lv & (i & Hi & Nv) & K); apply Nv.
  set (w := ap n Ai (vent v)).
  assert (AW : forall k, (k < n)%nat -> ap n A w k = vent v k).
  { intros k Hk; apply (inverse_ap n A Ai (vent v) k IA Hk). }
  assert (JW : forall k, (k < n)%nat -> ap n (J2 z) w k = 0).
  { intros k Hk; rewrite (HJ z x C w k Hk); apply comb_zero; [|exact Hk].
    intros l Hl; rewrite (ap_ext n (J1 x) (ap n A w) (vent v) l AW); apply K; exact Hl. }
  assert (W : forall k, (k < n)%nat -> w k = 0).
  { intros k Hk; destruct (inverse_ap n _ _ w k I2 Hk) as [_ <-]; apply ap_zero; exact JW. }
  rewrite <- AW by exact Hi; apply ap_zero; exact W.
Qed.

Lemma singular_change z x H1 : change n A b z x -> inverse_of n (J1 x) H1 -> ~ singular n (J2 z).
Proof.
  intros C I1 (v & Lv & (i & Hi & Nv) & K); apply Nv.
  assert (JV : forall k, (k < n)%nat -> ap n (J1 x) (ap n A (vent v)) k = 0).
  { apply comb_inj; intros k Hk; rewrite <- (HJ z x C (vent v) k Hk).
    rewrite (comb_zero (fun _ => 0)) by auto; apply K; exact Hk. }
  assert (AV : forall k, (k < n)%nat -> ap n A (vent v) k = 0).
  { intros k Hk; destruct (inverse_ap n _ _ (ap n A (vent v)) k I1 Hk) as [_ <-]; apply ap_zero; exact JV. }
  destruct (inverse_ap n _ _ (vent v) i IA Hi) as [_ <-]; apply ap_zero; exact AV.
Qed.

(** Paths of the same length end at corresponding points. *)
Lemma path_change e1 t1 e2 t2 : forall k x y, newton_path n J1 f1 e1 t1 k x y ->
  forall z y2, change n A b z x -> newton_path n J2 f2 e2 t2 k z y2 -> change n A b y2 y.
Proof.
  intros k x y P1; induction P1 as [x|k x x' y H1 T1 S1 I1 L1 E1 P1 IH]; intros z y2 C P2.
  - apply path_none in P2; rewrite P2; exact C.
  - apply path_first in P2; destruct P2 as (z' & H2 & T2 & S2 & I2 & L2 & E2 & P2').
    apply (IH z'); [|exact P2'].
    apply (step_change z x H1 H2); assumption.
Qed.
End Change.

Lemma amax_entry (v : vec R) i : (i < length v)%nat -> Rabs (vent v i) <= amax v.
Proof. intros Hi; apply (proj1 (amax_le v (amax v) (amax_nonneg v)) (Rle_refl _)); exact Hi. Qed.

(** A path can be cut. *)
Lemma path_cut n J f e t : forall k m x y, newton_path n J f e t (k + m) x y ->
  exists w, newton_path n J f e t k x w /\ newton_path n J f e t m w y.
Proof.
  induction k as [|k IH]; intros m x y P.
  - exists x; split; [constructor|exact P].
  - cbn [Nat.add] in P; apply path_first in P; destruct P as (x' & H & T & S1 & I & L & E & P').
    destruct (IH m x' y P') as (w & P1 & P2); exists w; split; [|exact P2].
    apply path_step with (x' := x') (H := H); assumption.
Qed.

(** The model functions [func], [jac] compute [f], [J] on real vectors. *)
Definition computes (n : nat) (func : vec XR -> vec XR) (jac : vec XR -> mat XR)
  (f : vec R -> vec R) (J : vec R -> mat R) : Prop :=
  (forall x, length x = n -> func (lift x) = lift (f x) /\ length (f x) = n) /\
  (forall x, length x = n -> jac (lift x) = liftm (J x) /\ square n (J x)).

(** ** Any combination of the equations, any change of unknowns *)

(** The equations [f2] are independent linear combinations (matrix [Mx]) of the
    equations [f1], written with other unknowns. Newton-Raphson visits the same
    points on both: whatever the tolerances and budgets, two runs of the same
    number of iterations end at the same point. *)
Theorem C72_same_iterates :
  forall n A Ai b Mx Mi func1 jac1 f1 J1 func2 jac2 f2 J2 x0 z0 tol1 tol2 maxit1 maxit2
    rf1 rf2 rf1' rf2' s1' s2' v1 v2,
  inverse_of n A Ai -> inverse_of n Mx Mi ->
  computes n func1 jac1 f1 J1 -> computes n func2 jac2 f2 J2 ->
  (forall z x, change n A b z x -> forall i, (i < n)%nat -> vent (f2 z) i = app n Mx (f1 x) i) ->
  (forall z x, change n A b z x -> forall i j, (i < n)%nat -> (j < n)%nat ->
     ment (J2 z) i j
     = rsum n (fun k => rsum n (fun l => ment Mx i k * ment (J1 x) k l * ment A l j))) ->
  change n A b z0 x0 ->
  rootfinder_new (mkSolverParameters n (Fin tol1) maxit1 NewtonRaphson false) (lift x0)
    (jac_iteratives n) (all_abs n) = Ret rf1 ->
  rootfinder_new (mkSolverParameters n (Fin tol2) maxit2 NewtonRaphson false) (lift z0)
    (jac_iteratives n) (all_abs n) = Ret rf2 ->
  solve (model_from_function_and_jacobian func1 jac1) rf1 (user_model_new n) = Ret (rf1', s1', v1) ->
  solve (model_from_function_and_jacobian func2 jac2) rf2 (user_model_new n) = Ret (rf2', s2', v2) ->
  v1 = Ok tt \/ v1 = Err NonConvergenceError -> v2 = Ok tt \/ v2 = Err NonConvergenceError ->
  rf_iter rf1' = rf_iter rf2' ->
  exists z x, change n A b z x /\ um_inputs s1' = lift x /\ um_inputs s2' = lift z.
Proof.
  intros n A Ai b Mx Mi func1 jac1 f1 J1 func2 jac2 f2 J2 x0 z0 tol1 tol2 maxit1 maxit2
    rf1 rf2 rf1' rf2' s1' s2' v1 v2 IA IM [F1 G1] [F2 G2] HF HJ C N1 N2 R1 R2 V1 V2 K.
  destruct (C62_newton_method n func1 jac1 f1 J1 x0 tol1 maxit1 rf1 F1 G1 ltac:(apply C) N1)
    as (q1 & t1 & k1 & y1 & P1 & L1 & _ & _ & E1).
  destruct (C62_newton_method n func2 jac2 f2 J2 z0 tol2 maxit2 rf2 F2 G2 ltac:(apply C) N2)
    as (q2 & t2 & k2 & y2 & P2 & L2 & _ & _ & E2).
  assert (A1 : um_inputs s1' = lift y1 /\ rf_iter rf1' = k1).
  { destruct E1 as [(E1 & U1 & T1 & _)|[(E1 & U1 & T1 & _)|(E1 & _)]]; rewrite R1 in E1;
      injection E1 as -> -> ->; auto; destruct V1; discriminate. }
  assert (A2 : um_inputs s2' = lift y2 /\ rf_iter rf2' = k2).
  { destruct E2 as [(E2 & U2 & T2 & _)|[(E2 & U2 & T2 & _)|(E2 & _)]]; rewrite R2 in E2;
      injection E2 as -> -> ->; auto; destruct V2; discriminate. }
  destruct A1 as [U1 T1], A2 as [U2 T2].
  assert (KK : k2 = k1) by congruence; rewrite KK in P2.
  exists y2, y1; split; [|split; [exact U1|exact U2]].
  refine (path_change n A b (ap n Mx) _ f1 f2 J1 J2 HF _ _ _ _ _ k1 x0 y1 P1 z0 y2 C P2).
  - intros u v Q k Hk.
    destruct (inverse_ap n Mx Mi u k IM Hk) as [_ <-], (inverse_ap n Mx Mi v k IM Hk) as [_ <-].
    apply ap_ext; exact Q.
  - intros z x CZ w i Hi; rewrite ap_ap.
    unfold ap at 1; rewrite (rsum_ext n _ (fun j =>
      rsum n (fun k => rsum n (fun l => ment Mx i k * ment (J1 x) k l * ment A l j)) * w j)).
    2: { intros j Hj; rewrite (HJ z x CZ i j Hi Hj); reflexivity. }
    unfold ap.
    rewrite (rsum_ext n (fun j => prod n Mx (J1 x) i j * rsum n (fun k => ment A j k * w k))
      (fun j => rsum n (fun k => prod n Mx (J1 x) i j * ment A j k * w k))).
    2: { intros j _; rewrite <- rsum_scal_l; apply rsum_ext; intros k _; ring. }
    rewrite (rsum_swap n n (fun j k => prod n Mx (J1 x) i j * ment A j k * w k)).
    apply rsum_ext; intros j _; rewrite rsum_scal_r; f_equal.
    rewrite rsum_swap; apply rsum_ext; intros l _; rewrite rsum_scal_r; f_equal.
Qed.
Print Assumptions C72_same_iterates.

(** ** Reordered equations, exchanged members, any change of unknowns *)

(** [p] and [q] are inverse to each other on the numbers below [n]. *)
Definition reordering (n : nat) (p q : nat -> nat) : Prop :=
  forall i, (i < n)%nat -> (p i < n)%nat /\ (q i < n)%nat /\ q (p i) = i /\ p (q i) = i.
(** Each sign is 1 or -1. *)
Definition signs (n : nat) (sg : nat -> R) : Prop :=
  forall i, (i < n)%nat -> sg i = 1 \/ sg i = -1.

(** Equation [i] of the second problem is equation [p i] of the first one, or
    this equation with its members exchanged; the unknowns may be written
    differently. Newton-Raphson then does the same on both problems: same verdict
    after the same number of iterations, at the same point. *)
Theorem C72_same_run :
  forall n A Ai b p q sg func1 jac1 f1 J1 func2 jac2 f2 J2 x0 z0 tol maxit rf1 rf2,
  inverse_of n A Ai -> reordering n p q -> signs n sg ->
  computes n func1 jac1 f1 J1 -> computes n func2 jac2 f2 J2 ->
  (forall z x, change n A b z x -> forall i, (i < n)%nat ->
     vent (f2 z) i = sg i * vent (f1 x) (p i)) ->
  (forall z x, change n A b z x -> forall i j, (i < n)%nat -> (j < n)%nat ->
     ment (J2 z) i j = sg i * rsum n (fun l => ment (J1 x) (p i) l * ment A l j)) ->
  change n A b z0 x0 ->
  rootfinder_new (mkSolverParameters n (Fin tol) maxit NewtonRaphson false) (lift x0)
    (jac_iteratives n) (all_abs n) = Ret rf1 ->
  rootfinder_new (mkSolverParameters n (Fin tol) maxit NewtonRaphson false) (lift z0)
    (jac_iteratives n) (all_abs n) = Ret rf2 ->
  exists rf1' s1' rf2' s2' v,
    solve (model_from_function_and_jacobian func1 jac1) rf1 (user_model_new n) = Ret (rf1', s1', v) /\
    solve (model_from_function_and_jacobian func2 jac2) rf2 (user_model_new n) = Ret (rf2', s2', v) /\
    rf_iter rf1' = rf_iter rf2' /\
    (v = Ok tt \/ v = Err NonConvergenceError ->
     exists z x, change n A b z x /\ um_inputs s1' = lift x /\ um_inputs s2' = lift z).
Proof.
  intros n A Ai b p q sg func1 jac1 f1 J1 func2 jac2 f2 J2 x0 z0 tol maxit
    rf1 rf2 IA RE SG [F1 G1] [F2 G2] HF HJ C N1 N2.
  destruct (C62_newton_method n func1 jac1 f1 J1 x0 tol maxit rf1 F1 G1 ltac:(apply C) N1)
    as (q1 & t1 & k1 & y1 & P1 & L1 & _ & B1 & E1).
  destruct (C62_newton_method n func2 jac2 f2 J2 z0 tol maxit rf2 F2 G2 ltac:(apply C) N2)
    as (q2 & t2 & k2 & y2 & P2 & L2 & _ & B2 & E2).
  set (comb := fun (u : nat -> R) (i : nat) => sg i * u (p i)).
  assert (INJ : forall u v, (forall i, (i < n)%nat -> comb u i = comb v i) ->
     forall k, (k < n)%nat -> u k = v k).
  { intros u v Q k Hk; destruct (RE k Hk) as (_ & Hq & _ & PQ).
    specialize (Q (q k) Hq); unfold comb in Q; rewrite PQ in Q.
    destruct (SG (q k) Hq) as [S|S]; rewrite S in Q; lra. }
  assert (ZERO : forall u, (forall k, (k < n)%nat -> u k = 0) ->
     forall i, (i < n)%nat -> comb u i = 0).
  { intros u Q i Hi; unfold comb; rewrite Q; [lra|apply RE; exact Hi]. }
  assert (HJ' : forall z x, change n A b z x -> forall w i, (i < n)%nat ->
     ap n (J2 z) w i = comb (ap n (J1 x) (ap n A w)) i).
  { intros z x CZ w i Hi; unfold comb; rewrite ap_ap; unfold ap, prod; rewrite <- rsum_scal_l.
    apply rsum_ext; intros j Hj; rewrite (HJ z x CZ i j Hi Hj); ring. }
  (* the two errors are the same *)
  assert (ERR : forall z x, change n A b z x -> amax (f1 x) = amax (f2 z)).
  { intros z x CZ; assert (LX : length (f1 x) = n) by apply F1, CZ.
    assert (LZ : length (f2 z) = n) by apply F2, CZ.
    assert (AB : forall i, (i < n)%nat -> Rabs (vent (f2 z) i) = Rabs (vent (f1 x) (p i))).
    { intros i Hi; rewrite (HF z x CZ i Hi); destruct (SG i Hi) as [-> | ->]; [f_equal; ring|].
      rewrite <- (Rabs_Ropp (vent (f1 x) (p i))); f_equal; ring. }
    apply Rle_antisym.
    - apply amax_le; [|intros i Hi; rewrite LX in Hi]; [apply amax_nonneg|].
      destruct (RE i Hi) as (_ & Hq & _ & PQ); rewrite <- PQ, <- (AB (q i) Hq).
      apply amax_entry; rewrite LZ; exact Hq.
    - apply amax_le; [|intros i Hi; rewrite LZ in Hi]; [apply amax_nonneg|].
      rewrite (AB i Hi); apply amax_entry; rewrite LX; apply RE; exact Hi. }
  assert (PC : forall k x y z w, newton_path n J1 f1 (fun x => amax (f1 x)) tol k x y ->
    change n A b z x -> newton_path n J2 f2 (fun x => amax (f2 x)) tol k z w -> change n A b w y).
  { intros k x y z w Q1 CZ Q2.
    exact (path_change n A b comb INJ f1 f2 J1 J2 HF HJ' _ _ _ _ k x y Q1 z w CZ Q2). }
  destruct (Nat.lt_trichotomy k1 k2) as [LT|[EQ|LT]].
  - exfalso.
    replace k2 with (k1 + S (k2 - S k1))%nat in P2 by lia.
    destruct (path_cut _ _ _ _ _ _ _ _ _ P2) as (w & PA & PB).
    apply path_first in PB; destruct PB as (w' & H & T & _ & I & _).
    assert (CW := PC k1 x0 y1 z0 w P1 C PA).
    rewrite <- (ERR w y1 CW) in T.
    destruct E1 as [(_ & _ & _ & Q)|[(_ & _ & _ & Q & _)|(_ & _ & _ & _ & Q)]]; [lra|lia|].
    exact (regular_change n A Ai b IA comb ZERO J1 J2 HJ' w y1 H CW I Q).
  - subst k2; assert (CY := PC k1 x0 y1 z0 y2 P1 C P2).
    assert (EE := ERR y2 y1 CY).
    destruct E1 as [(E1 & U1 & K1 & T1)|[(E1 & U1 & K1 & M1 & T1)|(E1 & K1 & M1 & T1 & S1)]],
      E2 as [(E2 & U2 & K2 & T2)|[(E2 & U2 & K2 & M2 & T2)|(E2 & K2 & M2 & T2 & S2)]];
      try lra; try lia.
    + exists q1, t1, q2, t2, (Ok tt); split; [exact E1|]; split; [exact E2|]; split; [congruence|].
      intros _; exists y2, y1; auto.
    + exists q1, t1, q2, t2, (Err NonConvergenceError).
      split; [exact E1|]; split; [exact E2|]; split; [congruence|].
      intros _; exists y2, y1; auto.
    + exists q1, t1, q2, t2, (Err (JacobianError InvalidJacobianInverseError)).
      split; [exact E1|]; split; [exact E2|]; split; [congruence|].
      intros [Q|Q]; discriminate.
  - exfalso.
    replace k1 with (k2 + S (k1 - S k2))%nat in P1 by lia.
    destruct (path_cut _ _ _ _ _ _ _ _ _ P1) as (w & PA & PB).
    apply path_first in PB; destruct PB as (w' & H & T & _ & I & _).
    assert (CW := PC k2 x0 w z0 y2 PA C P2).
    rewrite (ERR y2 w CW) in T.
    destruct E2 as [(_ & _ & _ & Q)|[(_ & _ & _ & Q & _)|(_ & _ & _ & _ & Q)]]; [lra|lia|].
    exact (singular_change n A Ai b IA comb INJ ZERO J1 J2 HJ' y2 w H CW I Q).
Qed.
Print Assumptions C72_same_run.

(** Two equations, [x^2 = 2] and [x y = 1], in both orders, the second one with
    its members exchanged, with the unknowns [x = 2 u] and [y = v + 1]. *)
Definition pair_f1 (v : vec R) : vec R :=
  match v with [x; y] => [x * x - 2; x * y - 1] | _ => [] end.
Definition pair_J1 (v : vec R) : mat R :=
  match v with [x; y] => [[2 * x; 0]; [y; x]] | _ => [] end.
Definition pair_f2 (v : vec R) : vec R :=
  match v with [u; w] => [1 - 2 * u * (w + 1); 2 * u * (2 * u) - 2] | _ => [] end.
Definition pair_J2 (v : vec R) : mat R :=
  match v with [u; w] => [[- 2 * (w + 1); - 2 * u]; [8 * u; 0]] | _ => [] end.
Definition on_pair (f : vec R -> vec R) (v : vec XR) : vec XR :=
  match v with [Fin x; Fin y] => lift (f [x; y]) | _ => [] end.
Definition on_pair_m (J : vec R -> mat R) (v : vec XR) : mat XR :=
  match v with [Fin x; Fin y] => liftm (J [x; y]) | _ => [] end.

Lemma length_2 {T} (v : list T) : length v = 2%nat -> exists x y, v = [x; y].
Proof. destruct v as [|x [|y [|]]]; try discriminate; eauto. Qed.

Lemma pair_computes1 : computes 2 (on_pair pair_f1) (on_pair_m pair_J1) pair_f1 pair_J1.
Proof.
  split; intros v Lv; apply length_2 in Lv; destruct Lv as (x & y & ->); split; try reflexivity.
  split; [reflexivity|]; intros [|[|i]] Hi; try reflexivity; lia.
Qed.
Lemma pair_computes2 : computes 2 (on_pair pair_f2) (on_pair_m pair_J2) pair_f2 pair_J2.
Proof.
  split; intros v Lv; apply length_2 in Lv; destruct Lv as (x & y & ->); split; try reflexivity.
  split; [reflexivity|]; intros [|[|i]] Hi; try reflexivity; lia.
Qed.

Definition pair_A : mat R := [[2; 0]; [0; 1]].
Lemma pair_change z x : change 2 pair_A [0; 1] z x ->
  exists u w, z = [u; w] /\ x = [2 * u; w + 1].
Proof.
  intros (Lz & Lx & E); apply length_2 in Lz, Lx.
  destruct Lz as (u & w & ->), Lx as (a & c & ->); exists u, w; split; [reflexivity|].
  assert (E0 := E 0%nat ltac:(lia)); assert (E1 := E 1%nat ltac:(lia)).
  cbv [vent nth app rsum ment pair_A] in E0, E1; f_equal; [lra|f_equal; lra].
Qed.

Example C72_case : forall maxit tol, exists rf1 rf2 rf1' s1' rf2' s2' v,
  rootfinder_new (mkSolverParameters 2 (Fin tol) maxit NewtonRaphson false) (lift [2; 1])
    (jac_iteratives 2) (all_abs 2) = Ret rf1 /\
  rootfinder_new (mkSolverParameters 2 (Fin tol) maxit NewtonRaphson false) (lift [1; 0])
    (jac_iteratives 2) (all_abs 2) = Ret rf2 /\
  solve (model_from_function_and_jacobian (on_pair pair_f1) (on_pair_m pair_J1)) rf1
    (user_model_new 2) = Ret (rf1', s1', v) /\
  solve (model_from_function_and_jacobian (on_pair pair_f2) (on_pair_m pair_J2)) rf2
    (user_model_new 2) = Ret (rf2', s2', v) /\
  rf_iter rf1' = rf_iter rf2'.
Proof.
  intros maxit tol; eexists; eexists.
  edestruct (C72_same_run 2 pair_A [[1 / 2; 0]; [0; 1]] [0; 1] (fun i => (1 - i)%nat)
    (fun i => (1 - i)%nat) (fun i => match i with O => -1 | _ => 1 end)
    (on_pair pair_f1) (on_pair_m pair_J1) pair_f1 pair_J1
    (on_pair pair_f2) (on_pair_m pair_J2) pair_f2 pair_J2 [2; 1] [1; 0] tol maxit)
    as (rf1' & s1' & rf2' & s2' & v & E1 & E2 & E3 & _).
  - intros i j Hi Hj; destruct i as [|[|]], j as [|[|]]; try lia;
      cbv [prod rsum ment nth pair_A delta Nat.eqb]; split; lra.
  - intros [|[|i]] Hi; repeat split; lia.
  - intros [|[|i]] Hi; auto; lia.
  - exact pair_computes1.
  - exact pair_computes2.
  - intros z x CZ i Hi; apply pair_change in CZ; destruct CZ as (u & w & -> & ->).
    destruct i as [|[|i]]; try lia; cbv [vent nth pair_f1 pair_f2 Nat.sub]; ring.
  - intros z x CZ i j Hi Hj; apply pair_change in CZ; destruct CZ as (u & w & -> & ->).
    destruct i as [|[|i]], j as [|[|j]]; try lia;
      cbv [rsum ment vent nth pair_J1 pair_J2 pair_A Nat.sub]; ring.
  - split; [reflexivity|]; split; [reflexivity|]; intros [|[|i]] Hi; try lia;
      cbv [vent nth app rsum ment pair_A]; lra.
  - reflexivity.
  - reflexivity.
  - exists rf1', s1', rf2', s2', v; split; [reflexivity|]; split; [reflexivity|]; auto.
Qed.

(** ** The quasi-Newton methods depend on the way an equation is written *)

(** [2 - x^2] and its derivative. *)
Definition sq2_swapped (x : vec f64) : vec f64 := map (fun a => nsub (Fz 2) (nmul a a)) x.
Definition sq2_swapped_jac (x : vec f64) : mat f64 := map (fun a => [nmul (Fz (-2)) a]) x.

Definition updates : list quasi_newton_method :=
  flat_map (fun u => [JacobianUpdate u; InverseJacobianUpdate u])
    [BroydenFirstMethod; BroydenSecondMethod; GreenstadtFirstMethod; GreenstadtSecondMethod].
Lemma updates_all qm : qm <> StationaryNewton <-> In qm updates.
Proof. destruct qm as [|[| | |]|[| | |]]; cbn; split; intros H; intuition (try discriminate; congruence). Qed.

Definition from2 (qm : quasi_newton_method) : rootfinder f64 :=
  sample_rf (params6 1 50 (QuasiNewton qm) false) [Fz 2] (jac_its 1) (abs_conf 1).

(** On doubles: with each of the eight updates, [x^2 = 2] is solved from 2 and
    [2 = x^2] is not. *)
Theorem C72_quasi_newton_refuted : forall qm, qm <> StationaryNewton ->
  exists rf1 s1 rf2 s2,
    solve (model_from_function_and_jacobian sq2 sq2_jac) (from2 qm) (user_model_new 1)
    = Ret (rf1, s1, Ok tt) /\
    solve (model_from_function_and_jacobian sq2_swapped sq2_swapped_jac) (from2 qm) (user_model_new 1)
    = Ret (rf2, s2, Err NonConvergenceError).
Proof.
  assert (C1 : forallb (fun qm => check_run
    (solve (model_from_function_and_jacobian sq2 sq2_jac) (from2 qm) (user_model_new 1))
    (fun _ _ r => is_ok r)) updates = true) by (vm_compute; reflexivity).
  assert (C2 : forallb (fun qm => check_run
    (solve (model_from_function_and_jacobian sq2_swapped sq2_swapped_jac) (from2 qm) (user_model_new 1))
    (fun _ _ r => is_nonconv r)) updates = true) by (vm_compute; reflexivity).
  intros qm UP; apply updates_all in UP.
  rewrite forallb_forall in C1, C2; specialize (C1 qm UP); specialize (C2 qm UP).
  apply check_run_true in C1, C2.
  destruct C1 as (rf1 & s1 & r1 & E1 & Q1), C2 as (rf2 & s2 & r2 & E2 & Q2).
  exists rf1, s1, rf2, s2; split.
  - destruct r1 as [[]|]; [exact E1|discriminate].
  - destruct r2 as [|[]]; try discriminate; exact E2.
Qed.
Print Assumptions C72_quasi_newton_refuted.
