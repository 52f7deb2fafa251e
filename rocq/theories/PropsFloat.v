(** C96: convergence in floating point. *)
From Coq Require Import Reals Lra Lia ZArith List Bool.
From Flocq Require Import Core BinarySingleNaN.
From Verif Require Import Base Num F64 Linalg Residuals Iteratives UserModel Jacobian Solver
  F64Facts F64Arith LimitFacts RNum ExactFacts LocalFacts PropsNorm PropsAccuracy PropsFD PropsStep PropsSlope
  Samples FloatRun.
Import ListNotations.
Open Scope R_scope.

(** Half the distance of two neighbours of 0. *)
Notation tiny := (bpow radix2 (-1075)).
Notation huge := (bpow radix2 1000).

Definition ent (v : vec f64) (i : nat) : R := key (nth i v n0).
Definition mentf (A : mat f64) (i j : nat) : R := key (nth j (nth i A []) n0).

(** [x] is a vector of [n] finite numbers within [d] of [xs]. *)
Definition around (n : nat) (xs : nat -> R) (d : R) (x : vec f64) : Prop :=
  length x = n /\ forall i, (i < n)%nat -> isfin (nth i x n0) = true /\ Rabs (ent x i - xs i) <= d.

(** What is asked of the function, as computed: near [xs] its values are finite
    and, up to [e], those of the slopes [S x] applied to the distance from [xs]. *)
Definition computed (func : vec f64 -> vec f64) (n : nat) (xs : nat -> R) (r : R)
  (S : vec f64 -> nat -> nat -> R) (sigma e : R) : Prop :=
  forall x, around n xs r x -> length (func x) = n /\
  forall i, (i < n)%nat -> isfin (nth i (func x) n0) = true /\
    Rabs (ent (func x) i - rsum n (fun l => S x i l * (ent x l - xs l))) <= e /\
    rsum n (fun l => Rabs (S x i l)) <= sigma.

(** What is asked of the inverse in use: finite, of norm at most [b], and an
    inverse of the slopes [A] up to [q]. *)
Definition nearly_inverse (n : nat) (H : mat f64) (A : nat -> nat -> R) (b q : R) : Prop :=
  squaref n H /\
  (forall i j, (i < n)%nat -> (j < n)%nat -> isfin (nth j (nth i H []) n0) = true) /\
  (forall i, (i < n)%nat -> rsum n (fun j => Rabs (mentf H i j)) <= b) /\
  (forall i, (i < n)%nat ->
     rsum n (fun l => Rabs ((if Nat.eqb l i then 1 else 0) - rsum n (fun j => mentf H i j * A j l))) <= q).

(** The roundings of one iteration. *)
Definition roundings (n : nat) (b phi B e : R) : R :=
  b * e + 4 * INR n * (u53 * (b * phi) + tiny) + u53 * B + tiny.

(** ** One operation *)
Lemma tiny_pos : 0 < tiny <= u53 / 1024.
Proof.
  split; [apply bpow_gt_0|]; replace (u53 / 1024) with (bpow radix2 (-63)).
  - apply bpow_le; lia.
  - replace 1024 with (bpow radix2 10) by (cbn; lra); change (-63)%Z with (-53 + -10)%Z.
    rewrite bpow_plus; unfold Rdiv; f_equal; rewrite <- bpow_opp; reflexivity.
Qed.
Lemma huge_big : 1 <= huge /\ 16 * huge < big.
Proof.
  split; [change 1 with (bpow radix2 0); apply bpow_le; lia|].
  unfold big; replace 16 with (bpow radix2 4) by (cbn; lra); rewrite <- bpow_plus; apply bpow_lt; lia.
Qed.

Lemma rounded (a : R) (x : f64) : isnan x = false /\ key x = sat (rnd a) -> Rabs a <= 4 * huge ->
  isfin x = true /\ Rabs (key x - a) <= u53 * Rabs a + tiny.
Proof.
  intros (N & E) HA; pose proof (rnd_error a) as RE; pose proof (rnd_near a) as RN.
  pose proof u53_small; pose proof tiny_pos; pose proof huge_big.
  assert (LB : Rabs (rnd a) < big) by nra.
  rewrite sat_id in E by lra; split; [apply key_finite; [exact N|rewrite E; exact LB]|rewrite E; lra].
Qed.

(** ** Scalar products *)
Lemma fold_error W : forall (a c : vec f64) (acc : f64) (s : R) (k : nat), length a = length c ->
  (forall i, (i < length a)%nat -> isfin (nth i a n0) = true /\ isfin (nth i c n0) = true) ->
  isfin acc = true -> Rabs (key acc - s) <= 4 * INR k * (u53 * W + tiny) ->
  0 <= W <= huge -> Rabs s + rsum (length a) (fun i => Rabs (ent a i * ent c i)) <= W ->
  INR (k + length a) * u53 <= / 8 ->
  let r := fold_left nadd (map2 nmul a c) acc in
  isfin r = true /\
  Rabs (key r - (s + rsum (length a) (fun i => ent a i * ent c i))) <= 4 * INR (k + length a) * (u53 * W + tiny).
Proof.
  pose proof u53_small as HU; pose proof tiny_pos as HT; pose proof huge_big as HH.
  induction a as [|x a IH]; intros [|y c] acc s k L FF FA EA BW BS BK; try discriminate.
  - cbn [length rsum map2 fold_left] in *; rewrite Nat.add_0_r, Rplus_0_r; split; assumption.
  - cbn [map2 fold_left].
    destruct (FF O ltac:(cbn; lia)) as (Fx & Fy); cbn [nth] in Fx, Fy.
    cbn [length rsum] in BS; cbn [length] in BK.
    change (ent (x :: a) 0 * ent (y :: c) 0) with (key x * key y) in BS.
    change (fun i : nat => Rabs (ent (x :: a) (S i) * ent (y :: c) (S i)))
      with (fun i : nat => Rabs (ent a i * ent c i)) in BS.
    set (R0 := rsum (length a) (fun i => Rabs (ent a i * ent c i))) in *.
    assert (P0 : 0 <= R0) by (apply Rle_trans with (rsum (length a) (fun _ => 0));
      [rewrite rsum_const; lra|apply LocalFacts.rsum_le; intros; apply Rabs_pos]).
    set (p := key x * key y) in *; set (T := u53 * W + tiny) in *.
    assert (PT : 0 <= T) by (unfold T; nra).
    assert (BK' : INR k * u53 <= / 8)
      by (apply Rle_trans with (2 := BK); apply Rmult_le_compat_r; [lra|apply le_INR; lia]).
    assert (PK : 0 <= INR k) by apply pos_INR.
    destruct (rounded p (nmul x y) (mul_fin x y Fx Fy)) as (F1 & E1); [pose proof (Rabs_pos s); lra|].
    set (m := nmul x y) in *; clearbody m.
    assert (A1 : Rabs (key m) <= Rabs p + u53 * Rabs p + tiny)
      by (pose proof (Rabs_triang_inv (key m) p); lra).
    assert (A2 : Rabs (key acc) <= Rabs s + 4 * INR k * T) by (pose proof (Rabs_triang_inv (key acc) s); lra).
    assert (TW : T <= W * u53 + tiny) by (unfold T; lra).
    assert (KT : INR k * u53 * T <= / 8 * T) by (apply Rmult_le_compat_r; lra).
    assert (SP : Rabs (key acc + key m) <= W + 4 * INR k * T + T).
    { pose proof (Rabs_triang (key acc) (key m)); pose proof (Rabs_pos s).
      assert (u53 * Rabs p <= u53 * W) by (apply Rmult_le_compat_l; lra); unfold T in *; lra. }
    assert (KT2 : 4 * INR k * T <= W / 2 + / 2).
    { assert (4 * INR k * T = 4 * (INR k * u53) * W + 4 * (INR k * tiny)) as -> by (unfold T; ring).
      assert (INR k * u53 * W <= / 8 * W) by (apply Rmult_le_compat_r; lra).
      assert (INR k * tiny <= INR k * (u53 / 1024)) by (apply Rmult_le_compat_l; lra); lra. }
    destruct (rounded (key acc + key m) (nadd acc m) (add_fin acc m FA F1)) as (F2 & E2).
    { assert (u53 * W <= 1 * W) by (apply Rmult_le_compat_r; lra); unfold T in *; lra. }
    assert (E3 : Rabs (key (nadd acc m) - (s + p)) <= 4 * INR (S k) * T).
    { replace (key (nadd acc m) - (s + p))
        with ((key (nadd acc m) - (key acc + key m)) + ((key acc - s) + (key m - p))) by ring.
      eapply Rle_trans; [apply Rabs_triang|].
      assert (Q := Rabs_triang (key acc - s) (key m - p)).
      assert (u53 * Rabs p <= u53 * W) by (apply Rmult_le_compat_l; [lra|]; pose proof (Rabs_pos s); lra).
      assert (u53 * Rabs (key acc + key m) <= u53 * (W + 4 * INR k * T + T)) by (apply Rmult_le_compat_l; lra).
      assert (u53 * (W + 4 * INR k * T + T) = u53 * W + 4 * (INR k * u53 * T) + u53 * T) by ring.
      assert (u53 * T <= / 1024 * T) by (apply Rmult_le_compat_r; lra).
      rewrite S_INR; unfold T in *; lra. }
    assert (BS' : Rabs (s + p) + R0 <= W) by (pose proof (Rabs_triang s p); lra).
    destruct (IH c (nadd acc m) (s + p) (S k) ltac:(injection L as L; exact L)
      ltac:(intros i Hi; apply (FF (S i)); cbn; lia) F2 E3 BW BS'
      ltac:(replace (S k + length a)%nat with (k + S (length a))%nat by lia; exact BK)) as (I1 & I2).
    split; [exact I1|].
    cbn [length rsum]; change (ent (x :: a) 0 * ent (y :: c) 0) with p.
    change (fun i : nat => ent (x :: a) (S i) * ent (y :: c) (S i)) with (fun i : nat => ent a i * ent c i).
    replace (k + S (length a))%nat with (S k + length a)%nat by lia.
    rewrite <- Rplus_assoc; exact I2.
Qed.

Lemma dot_error (a c : vec f64) W n : length a = n -> length c = n ->
  (forall i, (i < n)%nat -> isfin (nth i a n0) = true /\ isfin (nth i c n0) = true) ->
  rsum n (fun i => Rabs (ent a i * ent c i)) <= W -> W <= huge -> INR n * u53 <= / 8 ->
  isfin (dot a c) = true /\
  Rabs (key (dot a c) - rsum n (fun i => ent a i * ent c i)) <= 4 * INR n * (u53 * W + tiny).
Proof.
  intros La Lc FF BS BW BK.
  pose proof u53_small as HU; pose proof tiny_pos as HT; pose proof huge_big as HH.
  destruct a as [|x a]; destruct c as [|y c]; cbn [length] in La, Lc; subst n; try discriminate.
  - cbn [length rsum INR] in *; split; [reflexivity|].
    unfold dot; cbn [map2]; change (key n0) with 0; rewrite Rminus_0_r, Rabs_R0; lra.
  - cbn [length] in *; destruct (FF O ltac:(lia)) as (Fx & Fy); cbn [nth] in Fx, Fy.
    cbn [rsum] in *; change (ent (x :: a) 0 * ent (y :: c) 0) with (key x * key y) in *.
    change (fun i : nat => Rabs (ent (x :: a) (S i) * ent (y :: c) (S i)))
      with (fun i : nat => Rabs (ent a i * ent c i)) in *.
    change (fun i : nat => ent (x :: a) (S i) * ent (y :: c) (S i)) with (fun i : nat => ent a i * ent c i).
    assert (P0 : 0 <= rsum (length a) (fun i => Rabs (ent a i * ent c i)))
      by (apply Rle_trans with (rsum (length a) (fun _ => 0));
        [rewrite rsum_const; lra|apply LocalFacts.rsum_le; intros; apply Rabs_pos]).
    assert (PP := Rabs_pos (key x * key y)).
    destruct (rounded _ (nmul x y) (mul_fin x y Fx Fy)) as (F1 & E1); [lra|].
    injection Lc as Lc.
    change (dot (x :: a) (y :: c)) with (fold_left nadd (map2 nmul a c) (nmul x y)).
    assert (E2 : Rabs (key (nmul x y) - key x * key y) <= 4 * INR 1 * (u53 * W + tiny)).
    { assert (u53 * Rabs (key x * key y) <= u53 * W) by (apply Rmult_le_compat_l; lra).
      assert (0 <= u53 * W) by (apply Rmult_le_pos; lra); cbn [INR]; lra. }
    apply (fold_error W a c (nmul x y) (key x * key y) 1 (eq_sym Lc)); try assumption.
    + intros i Hi; apply (FF (S i)); lia.
    + lra.
Qed.

(** ** One iteration *)
Lemma nth_map2 (g : f64 -> f64 -> f64) : forall u v i, length u = length v -> (i < length u)%nat ->
  nth i (map2 g u v) n0 = g (nth i u n0) (nth i v n0).
Proof.
  induction u as [|a u IH]; intros [|b v] [|i] L Hi; try discriminate; cbn [length] in *; try lia; [reflexivity|].
  cbn [map2 nth]; apply IH; lia.
Qed.
Lemma forall_nth (Q : f64 -> Prop) (l : vec f64) : (forall i, (i < length l)%nat -> Q (nth i l n0)) -> Forall Q l.
Proof.
  intros H; apply Forall_forall; intros x Hx; apply (In_nth l x n0) in Hx as (i & Hi & <-); apply H, Hi.
Qed.
Lemma key_neg (x : f64) : key (nneg x) = - key x.
Proof. apply key_opp. Qed.

Section Step.
Context (func : vec f64 -> vec f64) (n : nat) (xs : nat -> R) (r : R) (S : vec f64 -> nat -> nat -> R)
  (sigma e b q B : R) (its : list (iterative f64)).
Let phi := sigma * r + e.
Let eps := roundings n b phi B e.
Context (CP : computed func n xs r S sigma e) (FI : Forall free_float its) (LI : length its = n)
  (P0 : 0 <= r) (P1 : 0 <= e) (P2 : 0 <= b) (P3 : 0 <= q) (P4 : 0 <= sigma)
  (BB : forall i, (i < n)%nat -> Rabs (xs i) + r <= B) (P5 : 0 <= B <= huge) (P6 : b * phi <= huge)
  (P7 : INR n * u53 <= / 8) (IN : q * r + eps <= r).

Lemma residual_size x d i : around n xs d x -> d <= r -> (i < n)%nat -> Rabs (ent (func x) i) <= sigma * d + e.
Proof using CP P4.
  intros AR Hd Hi.
  assert (AR' : around n xs r x) by (destruct AR as (L & A); split; [exact L|]; intros j Hj; destruct (A j Hj); split; [assumption|lra]).
  destruct (CP x AR') as (_ & C); destruct (C i Hi) as (_ & C2 & C3).
  assert (Q : Rabs (rsum n (fun l => S x i l * (ent x l - xs l))) <= sigma * d).
  { eapply Rle_trans; [apply rsum_abs|].
    assert (Pd : 0 <= d) by (destruct (proj2 AR i Hi) as (_ & A); pose proof (Rabs_pos (ent x i - xs i)); lra).
    apply Rle_trans with (rsum n (fun l => Rabs (S x i l) * d)).
    - apply LocalFacts.rsum_le; intros l Hl; rewrite Rabs_mult; apply Rmult_le_compat_l; [apply Rabs_pos|apply (proj2 AR l Hl)].
    - rewrite rsum_scal_r; apply Rmult_le_compat_r; assumption. }
  pose proof (Rabs_triang_inv (ent (func x) i) (rsum n (fun l => S x i l * (ent x l - xs l)))); lra.
Qed.

Definition float_next (H : mat f64) (z : vec f64) : vec f64 := map2 nadd z (mat_vec (mat_neg H) (func z)).

(** The step before limitation: the point it leads to. *)
Lemma raw_step z H d : around n xs d z -> 0 <= d <= r -> nearly_inverse n H (S z) b q ->
  length (mat_vec (mat_neg H) (func z)) = n /\ forall i, (i < n)%nat ->
    isfin (nth i (mat_vec (mat_neg H) (func z)) n0) = true /\
    Rabs (ent z i + ent (mat_vec (mat_neg H) (func z)) i - xs i)
      <= q * d + b * e + 4 * INR n * (u53 * (b * phi) + tiny).
Proof using CP P0 P1 P4 P6 P7.
  intros AR Hd (SH & FH & NH & IH).
  assert (AR' : around n xs r z) by (destruct AR as (L & A); split; [exact L|]; intros j Hj; destruct (A j Hj); split; [assumption|lra]).
  destruct (CP z AR') as (Lf & C).
  pose proof u53_small as HU; pose proof tiny_pos as HT; pose proof huge_big as HH.
  assert (Lz := proj1 AR).
  assert (LN : length (mat_vec (mat_neg H) (func z)) = n)
    by (unfold mat_vec, mat_neg; rewrite !map_length; apply SH).
  assert (SI : forall i, (i < n)%nat ->
    isfin (nth i (mat_vec (mat_neg H) (func z)) n0) = true /\
    Rabs (ent (mat_vec (mat_neg H) (func z)) i - - rsum n (fun j => mentf H i j * ent (func z) j))
      <= 4 * INR n * (u53 * (b * phi) + tiny)).
  { intros i Hi.
    assert (EN : nth i (mat_vec (mat_neg H) (func z)) n0 = dot (map nneg (nth i H [])) (func z)).
    { unfold mat_vec, mat_neg; rewrite map_map, (nth_indep _ n0 (dot (map nneg []) (func z)))
        by (rewrite map_length, (proj1 SH); exact Hi).
      rewrite (map_nth (fun l => dot (map nneg l) (func z))); reflexivity. }
    unfold ent at 1; rewrite EN.
    assert (LR : length (nth i H []) = n) by (apply SH, nth_In; rewrite (proj1 SH); exact Hi).
    assert (EK : forall j, nth j (map nneg (nth i H [])) (nneg n0) = nneg (nth j (nth i H []) n0)) by (intros; apply map_nth).
    assert (ED : forall j, (j < n)%nat -> nth j (map nneg (nth i H [])) n0 = nneg (nth j (nth i H []) n0)).
    { intros j Hj; rewrite (nth_indep _ n0 (nneg n0)) by (rewrite map_length, LR; exact Hj); apply EK. }
    destruct (dot_error (map nneg (nth i H [])) (func z) (b * phi) n) as (D1 & D2);
      [rewrite map_length; exact LR|exact Lf| | |exact P6|exact P7|].
    - intros j Hj; rewrite ED by exact Hj; rewrite opp_fin; split; [apply FH; assumption|apply (C j Hj)].
    - apply Rle_trans with (rsum n (fun j => Rabs (mentf H i j) * phi)).
      + apply LocalFacts.rsum_le; intros j Hj; unfold ent at 1; rewrite ED by exact Hj; rewrite key_neg.
        rewrite Ropp_mult_distr_l_reverse, Rabs_Ropp, Rabs_mult; apply Rmult_le_compat_l; [apply Rabs_pos|].
        exact (residual_size z r j AR' ltac:(lra) Hj).
      + rewrite rsum_scal_r; apply Rmult_le_compat_r; [|apply NH, Hi].
        unfold phi; pose proof (Rmult_le_pos _ _ P4 P0); lra.
    - split; [exact D1|].
      replace (- rsum n (fun j => mentf H i j * ent (func z) j))
        with (rsum n (fun j => ent (map nneg (nth i H [])) j * ent (func z) j)); [exact D2|].
      replace (- rsum n (fun j => mentf H i j * ent (func z) j)) with ((-1) * rsum n (fun j => mentf H i j * ent (func z) j)) by ring.
      rewrite <- rsum_scal_l; apply rsum_ext; intros j Hj; unfold ent at 1; rewrite ED by exact Hj; rewrite key_neg.
      unfold mentf; ring. }
  split; [exact LN|]; intros i Hi; destruct (SI i Hi) as (S1 & S2); split; [exact S1|].
  unfold ent in S2 at 1; change (ent (mat_vec (mat_neg H) (func z)) i) with (key (nth i (mat_vec (mat_neg H) (func z)) n0)).
  set (s := nth i (mat_vec (mat_neg H) (func z)) n0) in *.
  change (ent z i + key s - xs i) with (key (nth i z n0) + key s - xs i); set (zi := nth i z n0) in *.
  set (rho := fun j => ent (func z) j - rsum n (fun l => S z j l * (ent z l - xs l))).
      replace (key zi + key s - xs i) with
        (rsum n (fun l => ((if Nat.eqb l i then 1 else 0) - rsum n (fun j => mentf H i j * S z j l)) * (ent z l - xs l))
         + (- rsum n (fun j => mentf H i j * rho j) + (key s - - rsum n (fun j => mentf H i j * ent (func z) j)))).
      - eapply Rle_trans; [apply Rabs_triang|]; rewrite Rplus_assoc; apply Rplus_le_compat.
        + eapply Rle_trans; [apply rsum_abs|].
          apply Rle_trans with (rsum n (fun l =>
            Rabs ((if Nat.eqb l i then 1 else 0) - rsum n (fun j => mentf H i j * S z j l)) * d)).
          * apply LocalFacts.rsum_le; intros l Hl; rewrite Rabs_mult; apply Rmult_le_compat_l; [apply Rabs_pos|apply (proj2 AR l Hl)].
          * rewrite rsum_scal_r; apply Rmult_le_compat_r; [lra|apply IH, Hi].
        + eapply Rle_trans; [apply Rabs_triang|]; apply Rplus_le_compat; [|exact S2].
          rewrite Rabs_Ropp; eapply Rle_trans; [apply rsum_abs|].
          apply Rle_trans with (rsum n (fun j => Rabs (mentf H i j) * e)).
          * apply LocalFacts.rsum_le; intros j Hj; rewrite Rabs_mult; apply Rmult_le_compat_l; [apply Rabs_pos|].
            unfold rho; apply (C j Hj).
          * rewrite rsum_scal_r; apply Rmult_le_compat_r; [exact P1|apply NH, Hi].
      - replace (rsum n (fun l => ((if Nat.eqb l i then 1 else 0) - rsum n (fun j => mentf H i j * S z j l)) * (ent z l - xs l)))
          with ((ent z i - xs i) - rsum n (fun j => mentf H i j * rsum n (fun l => S z j l * (ent z l - xs l)))).
        + replace (rsum n (fun j => mentf H i j * rho j)) with
            (rsum n (fun j => mentf H i j * ent (func z) j) - rsum n (fun j => mentf H i j * rsum n (fun l => S z j l * (ent z l - xs l)))).
          * change (key zi) with (ent z i); ring.
          * rewrite <- rsum_minus; apply rsum_ext; intros j Hj; unfold rho; ring.
        + rewrite (rsum_ext n (fun l => ((if Nat.eqb l i then 1 else 0) - rsum n (fun j => mentf H i j * S z j l)) * (ent z l - xs l))
            (fun l => (if Nat.eqb l i then 1 else 0) * (ent z l - xs l)
            - rsum n (fun j => mentf H i j * S z j l) * (ent z l - xs l))) by (intros; ring).
          rewrite rsum_minus, (rsum_delta n i (fun l => ent z l - xs l) Hi); f_equal.
          rewrite (rsum_ext n (fun l => rsum n (fun j => mentf H i j * S z j l) * (ent z l - xs l))
            (fun l => rsum n (fun j => mentf H i j * S z j l * (ent z l - xs l)))) by (intros; rewrite rsum_scal_r; reflexivity).
          rewrite rsum_swap; apply rsum_ext; intros j Hj; rewrite <- rsum_scal_l; apply rsum_ext; intros; ring.
Qed.

Lemma float_step z H d : around n xs d z -> 0 <= d <= r -> nearly_inverse n H (S z) b q ->
  moves func n its H z (float_next H z) /\ around n xs (q * d + eps) (float_next H z).
Proof.
  intros AR Hd NI; destruct (raw_step z H d AR Hd NI) as (LN & SI); destruct NI as (SH & FH & NH & IH).
  assert (AR' : around n xs r z) by (destruct AR as (L & A); split; [exact L|]; intros j Hj; destruct (A j Hj); split; [assumption|lra]).
  destruct (CP z AR') as (Lf & C).
  pose proof u53_small as HU; pose proof tiny_pos as HT; pose proof huge_big as HH.
  assert (Lz := proj1 AR).
  assert (YI : forall i, (i < n)%nat -> isfin (nth i (float_next H z) n0) = true /\
    Rabs (ent (float_next H z) i - xs i) <= q * d + eps).
  { intros i Hi; destruct (SI i Hi) as (S1 & M1); destruct (proj2 AR i Hi) as (Z1 & Z2).
    unfold ent at 1, float_next; rewrite nth_map2 by (rewrite Lz, ?LN; auto).
    unfold ent in M1; set (s := nth i (mat_vec (mat_neg H) (func z)) n0) in *.
    set (zi := nth i z n0) in *.
    assert (QD : q * d <= q * r) by (apply Rmult_le_compat_l; lra).
    assert (UB : 0 <= u53 * B) by (apply Rmult_le_pos; lra).
    assert (M2 : Rabs (key zi + key s) <= B).
    { specialize (BB i Hi); unfold eps, roundings in IN.
      replace (key zi + key s) with ((key zi + key s - xs i) + xs i) by ring.
      eapply Rle_trans; [apply Rabs_triang|]; lra. }
    destruct (rounded _ (nadd zi s) (add_fin zi s Z1 S1)) as (F1 & E1); [lra|].
    split; [exact F1|].
    replace (key (nadd zi s) - xs i) with ((key (nadd zi s) - (key zi + key s)) + (key zi + key s - xs i)) by ring.
    eapply Rle_trans; [apply Rabs_triang|]; unfold eps, roundings.
    assert (u53 * Rabs (key zi + key s) <= u53 * B) by (apply Rmult_le_compat_l; lra); lra. }
  assert (LY : length (float_next H z) = n)
    by (unfold float_next; rewrite map2_length by (rewrite Lz, LN; reflexivity); exact Lz).
  split; [|split; assumption].
  split; [exact Lf|]; split; [apply SH|].
  apply free_steps; [exact FI|rewrite LI; symmetry; exact Lz|transitivity n; [exact LN|symmetry; exact Lz]|].
  apply forall_nth; fold (float_next H z).
  intros i Hi; apply fin_not_nan, YI; rewrite <- LY; exact Hi.
Qed.
End Step.

(** ** The whole run *)
Section Run.
Context (func : vec f64 -> vec f64) (n : nat) (xs : nat -> R) (r delta : R) (S : vec f64 -> nat -> nat -> R)
  (sigma e b q B : R) (its : list (iterative f64)).
Let phi := sigma * (r + delta) + e.
Let eps := roundings n b phi B e.
Context (CP : computed func n xs (r + delta) S sigma e) (FI : Forall free_float its) (LI : length its = n)
  (P0 : 0 <= r) (Pd : 0 <= delta) (P1 : 0 <= e) (P2 : 0 <= b) (P3 : 0 <= q < 1) (P4 : 0 <= sigma)
  (BB : forall i, (i < n)%nat -> Rabs (xs i) + (r + delta) <= B) (P5 : 0 <= B <= huge) (P6 : b * phi <= huge)
  (P7 : INR n * u53 <= / 8) (IN : q * (r + delta) + eps <= r).
Let E := (q * delta + eps) / (1 - q).

Lemma around_le d d' x : around n xs d x -> d <= d' -> around n xs d' x.
Proof. intros (L & A) Hd; split; [exact L|]; intros i Hi; destruct (A i Hi); split; [assumption|lra]. Qed.

Lemma eps_pos : 0 <= eps.
Proof using P1 P2 P4 P5 P0 Pd.
  unfold eps, roundings; pose proof u53_small; pose proof tiny_pos.
  assert (0 <= phi) by (unfold phi; pose proof (Rmult_le_pos sigma (r + delta) P4 ltac:(lra)); lra).
  assert (0 <= b * e) by (apply Rmult_le_pos; assumption).
  assert (0 <= u53 * (b * phi)) by (apply Rmult_le_pos; [lra|apply Rmult_le_pos; assumption]).
  assert (0 <= u53 * B) by (apply Rmult_le_pos; lra).
  assert (0 <= 4 * INR n * (u53 * (b * phi) + tiny)) by (apply Rmult_le_pos; [pose proof (pos_INR n); lra|lra]).
  lra.
Qed.
Lemma E_eq : E * (1 - q) = q * delta + eps.
Proof using P3. unfold E; field; lra. Qed.
Lemma E_pos : 0 <= E.
Proof using P0 P1 P2 P3 P4 P5 Pd.
  pose proof eps_pos; assert (0 <= q * delta) by (apply Rmult_le_pos; lra).
  unfold E, Rdiv; apply Rmult_le_pos; [lra|apply Rlt_le, Rinv_0_lt_compat; lra].
Qed.

(** The test of the tolerance. *)
Lemma error_finite x : around n xs (r + delta) x ->
  Forall (fun a => isnan a = false) (map nabs (func x)).
Proof using CP.
  intros A; destruct (CP x A) as (L & C); apply Forall_forall; intros a Ha.
  apply in_map_iff in Ha as (v & <- & Hv); rewrite abs_nan.
  apply (In_nth _ _ n0) in Hv as (i & Hi & <-); apply fin_not_nan, C; rewrite <- L; exact Hi.
Qed.
Lemma test_passed x d (tol : f64) : around n xs d x -> d <= r -> 0 <= d -> isnan tol = false ->
  sigma * d + e <= key tol -> ngtb (float_error func x) tol = false.
Proof using CP P4 Pd P1.
  intros A Hd Hd0 NT HT.
  assert (A' : around n xs (r + delta) x) by (apply around_le with d; [exact A|lra]).
  destruct (amax_spec (map nabs (func x)) (error_finite x A')) as (N & _ & Q).
  apply ltb_key_false; [exact NT|exact N|]; unfold float_error.
  destruct Q as [(_ & ->)|(v & Hv & ->)]; [pose proof (Rmult_le_pos sigma d P4 Hd0); lra|].
  apply in_map_iff in Hv as (w & <- & Hw); rewrite !key_abs, Rabs_Rabsolu.
  apply (In_nth _ _ n0) in Hw as (i & Hi & <-).
  apply Rle_trans with (2 := HT), (residual_size func n xs (r + delta) S sigma e CP P4 x d i A ltac:(lra)).
  rewrite <- (proj1 (CP x A')); exact Hi.
Qed.
Lemma test_means x (tol : f64) : around n xs (r + delta) x -> isnan tol = false ->
  ngtb (float_error func x) tol = false -> forall i, (i < n)%nat -> Rabs (ent (func x) i) <= key tol.
Proof using CP.
  intros A NT T i Hi.
  destruct (amax_spec (map nabs (func x)) (error_finite x A)) as (N & Q & _).
  apply ltb_key_false in T; [|exact NT|exact N].
  rewrite Forall_forall in Q; assert (Q' := Q (nabs (nth i (func x) n0))).
  assert (HI : In (nabs (nth i (func x) n0)) (map nabs (func x)))
    by (apply in_map, nth_In; rewrite (proj1 (CP x A)); exact Hi).
  apply leb_true_inv in Q' as (_ & _ & Q'); [|exact HI]; rewrite !key_abs, Rabs_Rabsolu in Q'.
  fold (float_error func x) in Q'; unfold ent; lra.
Qed.

(** The points of a run which contracts. *)
Lemma run_rate next tol : isnan tol = false ->
  (forall x d, around n xs d x -> 0 <= d <= r -> around n xs (q * (d + delta) + eps) (next x)) ->
  forall budget x d, around n xs d x -> 0 <= d <= r ->
  let '(k, y) := float_run func next tol budget x in
  (k <= budget)%nat /\ around n xs r y /\ around n xs (q ^ k * d + (1 - q ^ k) * E) y /\
  (ngtb (float_error func y) tol = true -> k = budget) /\
  forall m, (m <= budget)%nat -> sigma * (q ^ m * d + (1 - q ^ m) * E) + e <= key tol ->
    (k <= m)%nat /\ ngtb (float_error func y) tol = false.
Proof using P0 P1 P2 P3 P4 P5 Pd IN CP LI.
  intros NT HN; pose proof E_eq as HE; pose proof E_pos as HE0; pose proof eps_pos as He0.
  induction budget as [|budget IH]; intros x d A Hd.
  - cbn [float_run pow]; split; [lia|]; split; [apply around_le with d; [exact A|lra]|].
    split; [apply around_le with d; [exact A|lra]|]; split; [reflexivity|].
    intros m Hm HT; replace m with O in HT by lia; cbn [pow] in HT; split; [lia|].
    apply (test_passed x d tol A ltac:(lra) ltac:(lra) NT); lra.
  - cbn [float_run]; destruct (ngtb (float_error func x) tol) eqn:T.
    + assert (QD : 0 <= q * (d + delta) <= q * (r + delta))
        by (split; [apply Rmult_le_pos; lra|apply Rmult_le_compat_l; lra]).
      assert (B1 : 0 <= q * (d + delta) + eps <= r) by lra.
      specialize (IH (next x) (q * (d + delta) + eps) (HN x d A Hd) B1).
      assert (ST : forall m, q ^ m * (q * (d + delta) + eps) + (1 - q ^ m) * E
        = q ^ Datatypes.S m * d + (1 - q ^ Datatypes.S m) * E).
      { intros m; cbn [pow]; replace (q * (d + delta) + eps) with (q * d + E * (1 - q)) by lra; ring. }
      destruct (float_run func next tol budget (next x)) as [k y]; destruct IH as (I1 & I2 & I3 & I4 & I5).
      split; [lia|]; split; [exact I2|]; split; [rewrite <- ST; exact I3|].
      split; [intros Q; rewrite (I4 Q); reflexivity|].
      intros [|m] Hm HT.
      * exfalso; cbn [pow] in HT; assert (Q := test_passed x d tol A ltac:(lra) ltac:(lra) NT ltac:(lra)).
        rewrite T in Q; discriminate.
      * rewrite <- ST in HT; destruct (I5 m ltac:(lia) HT) as (J1 & J2); split; [lia|exact J2].
    + cbn [pow]; split; [lia|]; split; [apply around_le with d; [exact A|lra]|].
      split; [apply around_le with d; [exact A|lra]|]; split; [congruence|].
      intros m Hm HT; split; [lia|exact T].
Qed.

(** What is promised about the outcome [o]. *)
Definition promised_float (tol : f64) (maxit : nat)
  (o : outcome (rootfinder f64 * user_model f64 * result unit (solver_error Empty_set Empty_set))) : Prop :=
  exists rf' s' y, um_inputs s' = y /\ (rf_iter rf' <= maxit)%nat /\
    around n xs r y /\ around n xs (q ^ rf_iter rf' * r + E) y /\
    (o = Ret (rf', s', Ok tt) /\ (forall i, (i < n)%nat -> Rabs (ent (func y) i) <= key tol) \/
     o = Ret (rf', s', Err NonConvergenceError) /\ rf_iter rf' = maxit) /\
    forall m, (m <= maxit)%nat -> sigma * (q ^ m * r + E) + e <= key tol ->
      o = Ret (rf', s', Ok tt) /\ (rf_iter rf' <= m)%nat.

Definition settled (p : solver_parameters f64) (x0 : vec f64) (k : nat) (y : vec f64) : Prop :=
  (k <= sp_max_iter p)%nat /\ around n xs r y /\ around n xs (q ^ k * r + (1 - q ^ k) * E) y /\
  (ngtb (float_error func y) (sp_tolerance p) = true -> k = sp_max_iter p) /\
  forall m, (m <= sp_max_iter p)%nat -> sigma * (q ^ m * r + (1 - q ^ m) * E) + e <= key (sp_tolerance p) ->
    (k <= m)%nat /\ ngtb (float_error func y) (sp_tolerance p) = false.

Lemma promise_of_run provided get_jac (p : solver_parameters f64) rf rf' k y Q x0 : isnan (sp_tolerance p) = false ->
  finished func n provided get_jac p Q rf k y rf' -> settled p x0 k y ->
  promised_float (sp_tolerance p) (sp_max_iter p)
    (solve (mkModel um_problem_size um_set_iteratives um_inputs (um_evaluate func) um_get_residuals provided get_jac
      default_get_memory default_set_memory show_infallible show_infallible) rf (user_model_new n)).
Proof using P0 P1 P2 P3 P4 P5 Pd IN CP LI.
  intros NT (F1 & F2 & _) (S1 & S2 & S3 & S4 & S5); exists rf', (float_state func n y), y; rewrite F2.
  assert (PW : forall m, 0 <= q ^ m) by (intros m; apply pow_le; lra).
  assert (HE0 := E_pos).
  assert (W : forall m, (1 - q ^ m) * E <= E).
  { intros m; specialize (PW m); assert (0 <= q ^ m * E) by (apply Rmult_le_pos; assumption); lra. }
  split; [reflexivity|]; split; [exact S1|]; split; [exact S2|].
  split; [apply around_le with (1 := S3); specialize (W k); lra|].
  rewrite F1; split.
  - destruct (ngtb (float_error func y) (sp_tolerance p)) eqn:T.
    + right; split; [reflexivity|apply S4; reflexivity].
    + left; split; [reflexivity|]; apply test_means; [apply around_le with r; [exact S2|lra]|exact NT|exact T].
  - intros m Hm HT; destruct (S5 m Hm) as (J1 & J2).
    + apply Rle_trans with (2 := HT); apply Rplus_le_compat_r, Rmult_le_compat_l; [exact P4|specialize (W m); lra].
    + rewrite J2; split; [reflexivity|exact J1].
Qed.

(** The points used: [Z x] is the point where the model is left by the jacobian. *)
Definition displaced (x z : vec f64) : Prop :=
  length z = n /\ forall i, (i < n)%nat -> isfin (nth i z n0) = true /\ Rabs (ent z i - ent x i) <= delta.

Lemma displaced_around x z d : around n xs d x -> displaced x z -> around n xs (d + delta) z.
Proof.
  intros (L & A) (Lz & D); split; [exact Lz|]; intros i Hi; destruct (D i Hi) as (D1 & D2); destruct (A i Hi) as (_ & A2).
  split; [exact D1|]; replace (ent z i - xs i) with ((ent z i - ent x i) + (ent x i - xs i)) by ring.
  pose proof (Rabs_triang (ent z i - ent x i) (ent x i - xs i)); lra.
Qed.

Lemma one_step z H d : around n xs (d + delta) z -> 0 <= d <= r -> nearly_inverse n H (S z) b q ->
  moves func n its H z (float_next func H z) /\ around n xs (q * (d + delta) + eps) (float_next func H z).
Proof using P0 P1 P2 P3 P4 P5 P6 P7 Pd IN CP FI LI BB.
  intros A Hd NI.
  apply (float_step func n xs (r + delta) S sigma e b q B its CP FI LI ltac:(lra) P1 ltac:(lra) P4 BB P5 P6 P7
    ltac:(unfold eps, phi in IN; lra) z H (d + delta) A ltac:(lra) NI).
Qed.

Lemma newton_float provided get_jac (K : vec f64 -> mat f64) (Z : vec f64 -> vec f64) (tol : f64) (maxit : nat) (x0 : vec f64) (rf : rootfinder f64) :
  isnan tol = false ->
  (forall x, around n xs r x -> displaced x (Z x) /\ source func n provided get_jac its x (K x) (Z x) /\
     exists H, lu_inverse (K x) = Some H /\ nearly_inverse n H (S (Z x)) b q) ->
  around n xs r x0 ->
  rootfinder_new (mkSolverParameters n tol maxit NewtonRaphson false) x0 its (all_abs n) = Ret rf ->
  promised_float tol maxit
    (solve (mkModel um_problem_size um_set_iteratives um_inputs (um_evaluate func) um_get_residuals provided get_jac
      default_get_memory default_set_memory show_infallible show_infallible) rf (user_model_new n)).
Proof using P0 P1 P2 P3 P4 P5 P6 P7 Pd IN CP FI LI BB.
  intros NT HS A0 HN; set (p := mkSolverParameters n tol maxit NewtonRaphson false) in *.
  assert (SU : set_up n p its rf /\ rf_iter rf = O /\ rf_initial_guess rf = x0).
  { unfold rootfinder_new in HN; destruct negb; [discriminate|]; destruct negb; [discriminate|].
    destruct negb; [discriminate|]; injection HN as <-; repeat split. }
  destruct SU as (SU & I0 & G0).
  set (next := fun x => match lu_inverse (K x) with Some H => float_next func H (Z x) | None => x end).
  assert (ST : forall x d, around n xs d x -> 0 <= d <= r ->
    around n xs (q * (d + delta) + eps) (next x) /\
    exists A z H, source func n provided get_jac its x A z /\ lu_inverse A = Some H /\ moves func n its H z (next x)).
  { intros x d A Hd; destruct (HS x ltac:(apply around_le with d; [exact A|lra])) as (D1 & D2 & H & D3 & D4).
    destruct (one_step (Z x) H d (displaced_around x (Z x) d A D1) Hd D4) as (M1 & M2).
    unfold next; rewrite D3; split; [exact M2|]; exists (K x), (Z x), H; auto. }
  destruct (float_newton_solve func n provided get_jac p its eq_refl (or_introl eq_refl) (around n xs r)
    ltac:(intros x A; apply CP; apply around_le with r; [exact A|lra]) next rf eq_refl SU I0 ltac:(rewrite G0; exact A0)
    ltac:(intros x A _; destruct (ST x r A ltac:(lra)) as (N1 & A1 & z & H & N2 & N3 & N4);
      exists A1, z, H; split; [exact N2|]; split; [exact N3|]; split; [exact N4|]; apply around_le with (1 := N1); lra))
    as (rf' & FN).
  assert (RR := run_rate next tol NT ltac:(intros x d A Hd; apply (ST x d A Hd)) maxit x0 r A0 ltac:(lra)).
  rewrite G0 in FN; change (sp_tolerance p) with tol in FN; change (sp_max_iter p) with maxit in FN.
  destruct (float_run func next tol maxit x0) as [k y]; cbn [fst snd] in FN.
  exact (promise_of_run provided get_jac p rf rf' k y _ x0 NT FN RR).
Qed.

Lemma stationary_float provided get_jac (K : mat f64) (z : vec f64) (H : mat f64) (tol : f64) (maxit : nat) (x0 : vec f64) (rf : rootfinder f64) :
  isnan tol = false -> displaced x0 z -> source func n provided get_jac its x0 K z ->
  lu_inverse K = Some H -> (forall x, around n xs (r + delta) x -> nearly_inverse n H (S x) b q) ->
  around n xs r x0 ->
  rootfinder_new (mkSolverParameters n tol maxit (QuasiNewton StationaryNewton) false) x0 its (all_abs n) = Ret rf ->
  promised_float tol maxit
    (solve (mkModel um_problem_size um_set_iteratives um_inputs (um_evaluate func) um_get_residuals provided get_jac
      default_get_memory default_set_memory show_infallible show_infallible) rf (user_model_new n)).
Proof using P0 P1 P2 P3 P4 P5 P6 P7 Pd IN CP FI LI BB.
  intros NT DZ SR EH NI A0 HN; set (p := mkSolverParameters n tol maxit (QuasiNewton StationaryNewton) false) in *.
  assert (SU : set_up n p its rf /\ rf_iter rf = O /\ rf_initial_guess rf = x0 /\
    jm_compute_at_next (rf_jacobian rf) = true).
  { unfold rootfinder_new in HN; destruct negb; [discriminate|]; destruct negb; [discriminate|].
    destruct negb; [discriminate|]; injection HN as <-; repeat split. }
  destruct SU as (SU & I0 & G0 & C0).
  assert (SELF : forall x d, around n xs d x -> 0 <= d <= r -> around n xs (d + delta) x)
    by (intros x d A Hd; apply around_le with d; [exact A|lra]).
  assert (ST : forall x d, around n xs d x -> 0 <= d <= r -> moves func n its H x (float_next func H x) /\
    around n xs (q * (d + delta) + eps) (float_next func H x)).
  { intros x d A Hd; apply (one_step x H d (SELF x d A Hd) Hd), NI, around_le with d; [exact A|lra]. }
  destruct (one_step z H r (displaced_around x0 z r A0 DZ) ltac:(lra)
    ltac:(apply NI; exact (displaced_around x0 z r A0 DZ))) as (M1 & M2).
  assert (AR : forall w, around n xs (q * (r + delta) + eps) w -> around n xs r w)
    by (intros w A; apply around_le with (1 := A); lra).
  destruct (float_stationary_solve func n provided get_jac p its eq_refl (or_intror eq_refl) (around n xs r)
    ltac:(intros x A; apply CP; apply around_le with r; [exact A|lra]) (fun _ => float_next func H z) K z H rf
    eq_refl SU I0 C0 ltac:(rewrite G0; exact A0) ltac:(rewrite G0; exact SR) EH
    ltac:(intros _; split; [exact M1|apply AR, M2]) (float_next func H)
    ltac:(intros x A _; destruct (ST x r A ltac:(lra)) as (N1 & N2); split; [exact N1|apply AR, N2]))
    as (k & y & rf' & FN & RUN).
  rewrite G0 in RUN.
  assert (RR := run_rate (float_next func H) tol NT ltac:(intros x d A Hd; apply (ST x d A Hd))).
  pose proof E_eq as HE; pose proof E_pos as HE0; pose proof eps_pos as He0.
  assert (SE : settled p x0 k y).
  { unfold settled; change (sp_tolerance p) with tol in *; change (sp_max_iter p) with maxit in *.
    destruct maxit as [|budget].
    - injection RUN as -> ->; cbn [pow].
      split; [lia|]; split; [exact A0|]; split; [apply around_le with r; [exact A0|lra]|]; split; [reflexivity|].
      intros m Hm HT; replace m with O in HT by lia; cbn [pow] in HT; split; [lia|].
      apply (test_passed x0 r tol A0 ltac:(lra) ltac:(lra) NT); lra.
    - destruct (ngtb (float_error func x0) tol) eqn:T.
      + assert (QD : 0 <= q * (r + delta)) by (apply Rmult_le_pos; lra).
        specialize (RR budget (float_next func H z) (q * (r + delta) + eps) M2 ltac:(lra)).
        assert (SP : forall m, q ^ m * (q * (r + delta) + eps) + (1 - q ^ m) * E
          = q ^ Datatypes.S m * r + (1 - q ^ Datatypes.S m) * E).
        { intros m; cbn [pow]; replace (q * (r + delta) + eps) with (q * r + E * (1 - q)) by lra; ring. }
        destruct (float_run func (float_next func H) tol budget (float_next func H z)) as [k1 y1].
        injection RUN as -> ->; destruct RR as (J1 & J2 & J3 & J4 & J5).
        split; [lia|]; split; [exact J2|]; split; [rewrite <- SP; exact J3|].
        split; [intros Q; rewrite (J4 Q); reflexivity|].
        intros [|m] Hm HT.
        * exfalso; cbn [pow] in HT; assert (Q := test_passed x0 r tol A0 ltac:(lra) ltac:(lra) NT ltac:(lra)).
          rewrite T in Q; discriminate.
        * rewrite <- SP in HT; destruct (J5 m ltac:(lia) HT) as (L1 & L2); split; [lia|exact L2].
      + injection RUN as -> ->; cbn [pow].
        split; [lia|]; split; [exact A0|]; split; [apply around_le with r; [exact A0|lra]|]; split; [congruence|].
        intros m Hm HT; split; [lia|exact T]. }
  exact (promise_of_run provided get_jac p rf rf' k y _ x0 NT FN SE).
Qed.
End Run.

(** ** The theorems *)

(** The numbers: slopes of size [sigma], inverses of norm [b], contraction [q],
    coordinates up to [B], and roundings which leave room inside the radius
    [r]; finite differences displace the point by up to [delta]. *)
Record contracting (n : nat) (xs : nat -> R) (r delta sigma e b q B : R) : Prop := mkContracting {
  ct_radius : 0 <= r;
  ct_delta : 0 <= delta;
  ct_error : 0 <= e;
  ct_inverse : 0 <= b;
  ct_factor : 0 <= q < 1;
  ct_slopes : 0 <= sigma;
  ct_points : forall i, (i < n)%nat -> Rabs (xs i) + (r + delta) <= B;
  ct_size : 0 <= B <= huge;
  ct_steps : b * (sigma * (r + delta) + e) <= huge;
  ct_dim : INR n * u53 <= / 8;
  ct_room : q * (r + delta) + roundings n b (sigma * (r + delta) + e) B e <= r
}.

Theorem C96_newton : forall func jac n xs r S sigma e b q B tol maxit x0 rf,
  computed func n xs r S sigma e -> contracting n xs r 0 sigma e b q B ->
  (forall x, around n xs r x -> squaref n (jac x) /\
     exists H, lu_inverse (jac x) = Some H /\ nearly_inverse n H (S x) b q) ->
  isnan tol = false -> around n xs r x0 ->
  rootfinder_new (mkSolverParameters n tol maxit NewtonRaphson false) x0 (jac_iteratives64 n) (all_abs n) = Ret rf ->
  promised_float func n xs r 0 sigma e b q B tol maxit
    (solve (model_from_function_and_jacobian func jac) rf (user_model_new n)).
Proof.
  intros func jac n xs r S sigma e b q B tol maxit x0 rf CP CT HJ NT A0 HN.
  destruct CT as [T1 T2 T3 T4 T5 T6 T7 T8 T9 T10 T11].
  rewrite <- (Rplus_0_r r) in CP at 1.
  refine (newton_float func n xs r 0 S sigma e b q B (jac_iteratives64 n) CP (proj1 (jac_free n)) (proj2 (jac_free n))
    T1 T2 T3 T4 T5 T6 T7 T8 T9 T10 T11 (fun _ => true) (um_get_jacobian jac) jac (fun x => x) tol maxit x0 rf NT _ A0 HN).
  intros x A; destruct (HJ x A) as (SQ & H & J1 & J2); split.
  - split; [apply A|]; intros i Hi; split; [apply A, Hi|].
    unfold Rminus; rewrite Rplus_opp_r, Rabs_R0; lra.
  - split; [|exists H; split; assumption].
    apply analytic_source; [apply CP; rewrite Rplus_0_r; exact A|exact SQ].
Qed.
Print Assumptions C96_newton.

Theorem C96_stationary : forall func jac n xs r S sigma e b q B H tol maxit x0 rf,
  computed func n xs r S sigma e -> contracting n xs r 0 sigma e b q B ->
  squaref n (jac x0) -> lu_inverse (jac x0) = Some H ->
  (forall x, around n xs r x -> nearly_inverse n H (S x) b q) ->
  isnan tol = false -> around n xs r x0 ->
  rootfinder_new (mkSolverParameters n tol maxit (QuasiNewton StationaryNewton) false) x0
    (jac_iteratives64 n) (all_abs n) = Ret rf ->
  promised_float func n xs r 0 sigma e b q B tol maxit
    (solve (model_from_function_and_jacobian func jac) rf (user_model_new n)).
Proof.
  intros func jac n xs r S sigma e b q B H tol maxit x0 rf CP CT SQ EH HJ NT A0 HN.
  destruct CT as [T1 T2 T3 T4 T5 T6 T7 T8 T9 T10 T11].
  rewrite <- (Rplus_0_r r) in CP at 1.
  refine (stationary_float func n xs r 0 S sigma e b q B (jac_iteratives64 n) CP (proj1 (jac_free n)) (proj2 (jac_free n))
    T1 T2 T3 T4 T5 T6 T7 T8 T9 T10 T11 (fun _ => true) (um_get_jacobian jac) (jac x0) x0 H tol maxit x0 rf NT _ _ EH _ A0 HN).
  - split; [apply A0|]; intros i Hi; split; [apply A0, Hi|].
    unfold Rminus; rewrite Rplus_opp_r, Rabs_R0; lra.
  - apply analytic_source; [apply CP; rewrite Rplus_0_r; exact A0|exact SQ].
  - intros x A; apply HJ; rewrite <- (Rplus_0_r r); exact A.
Qed.
Print Assumptions C96_stationary.

(** The perturbations chosen by the iteratives [its] at [x]: at most [delta]
    away, in every coordinate, after the addition. *)
Definition small_shifts (n : nat) (its : list (iterative f64)) (delta : R) (x : vec f64) (d : vec f64) : Prop :=
  compute_perturbations its x = Ret d /\ length d = n /\
  forall j, (j < n)%nat -> isfin (nadd (nth j x n0) (nth j d n0)) = true /\
    Rabs (key (nadd (nth j x n0) (nth j d n0)) - ent x j) <= delta.

Lemma shift_nth (x : vec f64) : forall j (d : f64) i, (j < length x)%nat ->
  nth i (shift x j d) n0 = if Nat.eqb i j then nadd (nth j x n0) d else nth i x n0.
Proof.
  induction x as [|a x IH]; intros j d i Hj; cbn [length] in Hj; [lia|].
  destruct j as [|j]; [destruct i; reflexivity|].
  destruct i as [|i]; [reflexivity|].
  change (shift (a :: x) (S j) d) with (a :: shift x j d); cbn [nth Nat.eqb]; apply IH; lia.
Qed.

Lemma shift_around n xs r its delta x d j : around n xs r x -> 0 <= delta -> small_shifts n its delta x d ->
  (j < n)%nat -> displaced n delta x (shift x j (nth j d n0)) /\ around n xs (r + delta) (shift x j (nth j d n0)).
Proof.
  intros A Pd (_ & Ld & SD) Hj.
  assert (D : displaced n delta x (shift x j (nth j d n0))).
  { split; [rewrite shift_size; apply A|].
    intros i Hi; unfold ent; rewrite shift_nth by (rewrite (proj1 A); exact Hj).
    destruct (Nat.eqb_spec i j) as [->|_]; [apply SD, Hj|].
    split; [apply A, Hi|]; unfold Rminus; rewrite Rplus_opp_r, Rabs_R0; exact Pd. }
  split; [exact D|exact (displaced_around n xs delta x _ r A D)].
Qed.

Theorem C96_finite_differences : forall func n xs r delta S sigma e b q B its step tol maxit x0 rf,
  (1 <= n)%nat -> computed func n xs (r + delta) S sigma e -> contracting n xs r delta sigma e b q B ->
  Forall free_float its -> length its = n ->
  (forall x, around n xs r x -> small_shifts n its delta x (step x) /\
     exists H, lu_inverse (fd_float func n x (step x)) = Some H /\
       nearly_inverse n H (S (shift x (n - 1) (nth (n - 1) (step x) n0))) b q) ->
  isnan tol = false -> around n xs r x0 ->
  rootfinder_new (mkSolverParameters n tol maxit NewtonRaphson false) x0 its (all_abs n) = Ret rf ->
  promised_float func n xs r delta sigma e b q B tol maxit (solve (model_from_function func) rf (user_model_new n)).
Proof.
  intros func n xs r delta S sigma e b q B its step tol maxit x0 rf Pn CP CT FI LI HJ NT A0 HN.
  destruct CT as [T1 T2 T3 T4 T5 T6 T7 T8 T9 T10 T11].
  refine (newton_float func n xs r delta S sigma e b q B its CP FI LI T1 T2 T3 T4 T5 T6 T7 T8 T9 T10 T11
    default_jacobian_provided (default_get_jacobian um_inputs) (fun x => fd_float func n x (step x))
    (fun x => shift x (n - 1) (nth (n - 1) (step x) n0)) tol maxit x0 rf NT _ A0 HN).
  intros x A; destruct (HJ x A) as (SD & H & J1 & J2).
  split; [apply (shift_around n xs r its delta x (step x)); auto; lia|].
  split; [|exists H; split; assumption].
  apply fd_source; [exact Pn|apply A|apply SD|apply SD| | |reflexivity].
  - apply CP, around_le with r; [exact A|lra].
  - intros j Hj; apply CP, (shift_around n xs r its delta x (step x)); auto.
Qed.
Print Assumptions C96_finite_differences.

Theorem C96_stationary_differences : forall func n xs r delta S sigma e b q B its d H tol maxit x0 rf,
  (1 <= n)%nat -> computed func n xs (r + delta) S sigma e -> contracting n xs r delta sigma e b q B ->
  Forall free_float its -> length its = n -> small_shifts n its delta x0 d ->
  lu_inverse (fd_float func n x0 d) = Some H ->
  (forall x, around n xs (r + delta) x -> nearly_inverse n H (S x) b q) ->
  isnan tol = false -> around n xs r x0 ->
  rootfinder_new (mkSolverParameters n tol maxit (QuasiNewton StationaryNewton) false) x0 its (all_abs n) = Ret rf ->
  promised_float func n xs r delta sigma e b q B tol maxit (solve (model_from_function func) rf (user_model_new n)).
Proof.
  intros func n xs r delta S sigma e b q B its d H tol maxit x0 rf Pn CP CT FI LI SD EH HJ NT A0 HN.
  destruct CT as [T1 T2 T3 T4 T5 T6 T7 T8 T9 T10 T11].
  refine (stationary_float func n xs r delta S sigma e b q B its CP FI LI T1 T2 T3 T4 T5 T6 T7 T8 T9 T10 T11
    default_jacobian_provided (default_get_jacobian um_inputs) (fd_float func n x0 d)
    (shift x0 (n - 1) (nth (n - 1) d n0)) H tol maxit x0 rf NT _ _ EH HJ A0 HN).
  - apply (shift_around n xs r its delta x0 d); auto; lia.
  - apply fd_source; [exact Pn|apply A0|apply SD|apply SD| | |reflexivity].
    + apply CP, around_le with r; [exact A0|lra].
    + intros j Hj; apply CP, (shift_around n xs r its delta x0 d); auto.
Qed.
Print Assumptions C96_stationary_differences.

(** Where the computed values pass the test, the root is near. *)
Lemma largest : forall n (w : nat -> R), (0 < n)%nat ->
  exists i, (i < n)%nat /\ forall j, (j < n)%nat -> Rabs (w j) <= Rabs (w i).
Proof.
  induction n as [|n IH]; intros w Hn; [lia|].
  destruct n as [|n]; [exists O; split; [lia|]; intros j Hj; replace j with O by lia; lra|].
  destruct (IH w ltac:(lia)) as (i & Hi & M).
  destruct (Rle_lt_dec (Rabs (w (Datatypes.S n))) (Rabs (w i))) as [L|L].
  - exists i; split; [lia|]; intros j Hj; destruct (Nat.eq_dec j (Datatypes.S n)) as [->|]; [exact L|apply M; lia].
  - exists (Datatypes.S n); split; [lia|]; intros j Hj; destruct (Nat.eq_dec j (Datatypes.S n)) as [->|]; [lra|].
    specialize (M j ltac:(lia)); lra.
Qed.

Theorem C96_distance : forall func n xs r S sigma e b q H y tol,
  computed func n xs r S sigma e -> around n xs r y -> nearly_inverse n H (S y) b q ->
  0 <= q < 1 -> 0 <= tol + e -> (forall i, (i < n)%nat -> Rabs (ent (func y) i) <= tol) ->
  around n xs (b * (tol + e) / (1 - q)) y.
Proof.
  intros func n xs r S sigma e b q H y tol CP A (_ & _ & NH & IH) Hq Ht T.
  split; [apply A|]; intros i Hi; split; [apply A, Hi|].
  destruct (largest n (fun l => ent y l - xs l) ltac:(lia)) as (m & Hm & M).
  apply Rle_trans with (1 := M i Hi).
  destruct (CP y A) as (_ & C).
  set (w := fun l => ent y l - xs l) in *; change (ent y m - xs m) with (w m).
  assert (Q : Rabs (w m) <= q * Rabs (w m) + b * (tol + e)).
  { replace (w m) with (rsum n (fun l => ((if Nat.eqb l m then 1 else 0) - rsum n (fun j => mentf H m j * S y j l)) * w l)
      + rsum n (fun j => mentf H m j * rsum n (fun l => S y j l * w l))) at 1.
    - eapply Rle_trans; [apply Rabs_triang|]; apply Rplus_le_compat.
      + eapply Rle_trans; [apply rsum_abs|].
        apply Rle_trans with (rsum n (fun l =>
          Rabs ((if Nat.eqb l m then 1 else 0) - rsum n (fun j => mentf H m j * S y j l)) * Rabs (w m))).
        * apply LocalFacts.rsum_le; intros l Hl; rewrite Rabs_mult; apply Rmult_le_compat_l; [apply Rabs_pos|apply (M l Hl)].
        * rewrite rsum_scal_r; apply Rmult_le_compat_r; [apply Rabs_pos|apply IH, Hm].
      + eapply Rle_trans; [apply rsum_abs|].
        apply Rle_trans with (rsum n (fun j => Rabs (mentf H m j) * (tol + e))).
        * apply LocalFacts.rsum_le; intros j Hj; rewrite Rabs_mult; apply Rmult_le_compat_l; [apply Rabs_pos|].
          destruct (C j Hj) as (_ & C2 & _); specialize (T j Hj); fold w in C2.
          change (fun l : nat => S y j l * (ent y l - xs l)) with (fun l : nat => S y j l * w l) in C2.
          pose proof (Rabs_triang_inv (rsum n (fun l => S y j l * w l)) (ent (func y) j)).
          rewrite Rabs_minus_sym in C2; lra.
        * rewrite rsum_scal_r; apply Rmult_le_compat_r; [exact Ht|apply NH, Hm].
    - rewrite (rsum_ext n (fun l => ((if Nat.eqb l m then 1 else 0) - rsum n (fun j => mentf H m j * S y j l)) * w l)
        (fun l => (if Nat.eqb l m then 1 else 0) * w l - rsum n (fun j => mentf H m j * S y j l) * w l)) by (intros; ring).
      rewrite rsum_minus, (rsum_delta n m w Hm).
      replace (rsum n (fun l => rsum n (fun j => mentf H m j * S y j l) * w l))
        with (rsum n (fun j => mentf H m j * rsum n (fun l => S y j l * w l))); [ring|].
      rewrite (rsum_ext n (fun l => rsum n (fun j => mentf H m j * S y j l) * w l)
        (fun l => rsum n (fun j => mentf H m j * S y j l * w l))) by (intros; rewrite rsum_scal_r; reflexivity).
      rewrite rsum_swap; apply rsum_ext; intros j Hj; rewrite <- rsum_scal_l; apply rsum_ext; intros; ring. }
  apply Rmult_le_reg_r with (1 - q); [lra|].
  unfold Rdiv; rewrite Rmult_assoc, Rinv_l by lra; lra.
Qed.
Print Assumptions C96_distance.

(** ** One variable *)
Lemma lift_inverse (j : f64) b : isfin j = true -> 1 <= b * Rabs (key j) -> 0 <= b <= huge ->
  lu_inverse [[j]] = Some [[ndiv n1 j]] /\ isfin (ndiv n1 j) = true /\
  Rabs (key (ndiv n1 j) - / key j) <= u53 * b + tiny /\ Rabs (key (ndiv n1 j)) <= b * (1 + u53) + tiny.
Proof.
  intros Fj Bj Hb; pose proof u53_small as HU.
  assert (NZ : key j <> 0) by (intros Z; rewrite Z, Rabs_R0 in Bj; lra).
  assert (I : lu_inverse [[j]] = Some [[ndiv n1 j]]).
  { unfold lu_inverse; cbn [length identity map seq combine lu_forward Nat.eqb fst snd hd icamax icamax_from swap_rows].
    replace (neqb j n0) with false; [reflexivity|].
    symmetry; destruct (neqb j n0) eqn:EQ; [|reflexivity]; exfalso; apply NZ.
    apply eqb_key in EQ; [rewrite EQ; reflexivity|apply fin_not_nan, Fj|reflexivity]. }
  assert (AB : Rabs (/ key j) <= b).
  { rewrite Rabs_inv; apply Rmult_le_reg_r with (Rabs (key j)); [apply Rabs_pos_lt, NZ|].
    rewrite Rinv_l by (apply Rabs_no_R0, NZ); exact Bj. }
  assert (F1' : isfin (n1 : f64) = true) by (vm_compute; reflexivity).
  destruct (rounded (key n1 / key j) (ndiv n1 j) (div_fin n1 j F1' Fj NZ)) as (F1 & E1).
  { rewrite key_n1; unfold Rdiv; rewrite Rmult_1_l; lra. }
  rewrite key_n1 in E1; unfold Rdiv in E1; rewrite Rmult_1_l in E1.
  assert (E2 : u53 * Rabs (/ key j) <= u53 * b) by (apply Rmult_le_compat_l; lra).
  split; [exact I|]; split; [exact F1|]; split; [lra|].
  pose proof (Rabs_triang_inv (key (ndiv n1 j)) (/ key j)); lra.
Qed.

Lemma nearly_inverse_1 (j : f64) (s b q sigma : R) : isfin j = true -> 1 <= b * Rabs (key j) -> 0 <= b <= huge ->
  Rabs (key j - s) <= q * Rabs (key j) -> Rabs s <= sigma ->
  exists H, lu_inverse [[j]] = Some H /\
    nearly_inverse 1 H (fun _ _ => s) (b * (1 + u53) + tiny) (q + sigma * (u53 * b + tiny)).
Proof.
  intros Fj Bj Hb Hq Hs; destruct (lift_inverse j b Fj Bj Hb) as (I1 & I2 & I3 & I4).
  assert (NZ : key j <> 0) by (intros Z; rewrite Z, Rabs_R0 in Bj; lra).
  exists [[ndiv n1 j]]; split; [exact I1|].
  split; [split; [reflexivity|]; intros l [<-|[]]; reflexivity|].
  split; [intros [|i] [|k] Hi Hk; try lia; exact I2|].
  split; intros [|i] Hi; try lia; cbn [rsum].
  - change (mentf [[ndiv n1 j]] 0 0) with (key (ndiv n1 j)); lra.
  - change (mentf [[ndiv n1 j]] 0 0) with (key (ndiv n1 j)); cbn [Nat.eqb]; rewrite !Rplus_0_r.
    replace (1 - key (ndiv n1 j) * s) with ((key j - s) * / key j + - ((key (ndiv n1 j) - / key j) * s)) by (field; exact NZ).
    eapply Rle_trans; [apply Rabs_triang|]; rewrite Rabs_Ropp, !Rabs_mult, Rabs_inv.
    apply Rplus_le_compat.
    + apply Rmult_le_reg_r with (Rabs (key j)); [apply Rabs_pos_lt, NZ|].
      rewrite Rmult_assoc, Rinv_l, Rmult_1_r by (apply Rabs_no_R0, NZ); exact Hq.
    + rewrite Rmult_comm; apply Rmult_le_compat; [apply Rabs_pos|apply Rabs_pos|exact Hs|exact I3].
Qed.

(** A function of one variable, with its jacobian: values up to [e], slope [s]
    to the root [a], jacobian at least [1 / b] and a slope up to [q]. *)
Definition one_function (f : f64 -> f64) (x : vec f64) : vec f64 := map f x.
Definition one_jacobian (j : f64 -> f64) (x : vec f64) : mat f64 := map (fun a => [j a]) x.
Definition computed_1 (f : f64 -> f64) (a r : R) (s : f64 -> R) (sigma e : R) : Prop :=
  forall x, isfin x = true -> Rabs (key x - a) <= r ->
  isfin (f x) = true /\ Rabs (key (f x) - s x * (key x - a)) <= e /\ Rabs (s x) <= sigma.
Definition slopes_1 (s : f64 -> R) (x : vec f64) (_ _ : nat) : R := s (nth 0 x n0).

Lemma around_1 a r x : around 1 (fun _ => a) r x ->
  exists v, x = [v] /\ isfin v = true /\ Rabs (key v - a) <= r.
Proof.
  intros (L & A); destruct x as [|v [|w x]]; try discriminate; exists v; split; [reflexivity|].
  exact (A O ltac:(lia)).
Qed.
Lemma around_1_of (a r : R) (v : f64) : isfin v = true -> Rabs (key v - a) <= r -> around 1 (fun _ => a) r [v].
Proof. intros F A; split; [reflexivity|]; intros [|i] Hi; [split; assumption|lia]. Qed.

Lemma computed_of_1 f a r s sigma e : computed_1 f a r s sigma e ->
  computed (one_function f) 1 (fun _ => a) r (slopes_1 s) sigma e.
Proof.
  intros C x A; destruct (around_1 a r x A) as (v & -> & Fv & Av); destruct (C v Fv Av) as (C1 & C2 & C3).
  split; [reflexivity|]; intros [|i] Hi; [|lia]; split; [exact C1|].
  cbn [rsum]; rewrite !Rplus_0_r; split; assumption.
Qed.

Theorem C96_one_variable : forall (f j : f64 -> f64) a r s sigma e b q B tol maxit x0 rf,
  computed_1 f a r s sigma e ->
  (forall x, isfin x = true -> Rabs (key x - a) <= r ->
     isfin (j x) = true /\ 1 <= b * Rabs (key (j x)) /\ Rabs (key (j x) - s x) <= q * Rabs (key (j x))) ->
  0 <= b <= huge ->
  let b' := b * (1 + u53) + tiny in
  let q' := q + sigma * (u53 * b + tiny) in
  contracting 1 (fun _ => a) r 0 sigma e b' q' B ->
  isnan tol = false -> isfin x0 = true -> Rabs (key x0 - a) <= r ->
  rootfinder_new (mkSolverParameters 1 tol maxit NewtonRaphson false) [x0] (jac_iteratives64 1) (all_abs 1) = Ret rf ->
  let o := solve (model_from_function_and_jacobian (one_function f) (one_jacobian j)) rf (user_model_new 1) in
  promised_float (one_function f) 1 (fun _ => a) r 0 sigma e b' q' B tol maxit o /\
  forall rf' s', o = Ret (rf', s', Ok tt) -> 0 <= key tol ->
    around 1 (fun _ => a) (b' * (key tol + e) / (1 - q')) (um_inputs s').
Proof.
  intros f j a r s sigma e b q B tol maxit x0 rf C HJ Hb b' q' CT NT F0 A0 HN o.
  assert (CP := computed_of_1 f a r s sigma e C).
  assert (IV : forall x, around 1 (fun _ => a) r x -> squaref 1 (one_jacobian j x) /\
    exists H, lu_inverse (one_jacobian j x) = Some H /\ nearly_inverse 1 H (slopes_1 s x) b' q').
  { intros x A; destruct (around_1 a r x A) as (v & -> & Fv & Av); destruct (HJ v Fv Av) as (J1 & J2 & J3).
    split; [split; [reflexivity|]; intros l [<-|[]]; reflexivity|].
    apply (nearly_inverse_1 (j v) (s v) b q sigma J1 J2 Hb J3); apply (C v Fv Av). }
  assert (PR := C96_newton (one_function f) (one_jacobian j) 1 (fun _ => a) r (slopes_1 s) sigma e b' q' B tol maxit
    [x0] rf CP CT IV NT (around_1_of a r x0 F0 A0) HN); fold o in PR.
  split; [exact PR|]; intros rf' s' HO HT.
  destruct PR as (rf1 & s1 & y & EY & _ & AY & _ & [(O1 & T)|(O1 & _)] & _); rewrite O1 in HO; [|discriminate].
  injection HO as <- <-; rewrite EY; destruct (IV y AY) as (_ & H & _ & NI).
  apply (C96_distance (one_function f) 1 (fun _ => a) r (slopes_1 s) sigma e b' q' H y (key tol) CP AY NI);
    [apply CT|pose proof (ct_error _ _ _ _ _ _ _ _ _ CT); lra|exact T].
Qed.
Print Assumptions C96_one_variable.

(** *** x^2 - 2 = 0 from every number within 2/5 of the root *)
Lemma sqrt_2 : 1.414 <= sqrt 2 <= 1.415 /\ sqrt 2 * sqrt 2 = 2.
Proof.
  assert (S : sqrt 2 * sqrt 2 = 2) by (apply sqrt_sqrt; lra); pose proof (sqrt_pos 2).
  split; [split; nra|exact S].
Qed.
Lemma close_tolerance : isnan (ndec 1 1000000 : f64) = false /\
  bpow radix2 (-20) <= key (ndec 1 1000000 : f64) <= bpow radix2 (-19).
Proof.
  split; [vm_compute; reflexivity|].
  assert (H1 : nleb (@B754_finite 53 1024 false 4503599627370496 (-72) eq_refl) (ndec 1 1000000 : f64) = true)
    by (vm_compute; reflexivity).
  assert (H2 : nleb (ndec 1 1000000 : f64) (@B754_finite 53 1024 false 4503599627370496 (-71) eq_refl) = true)
    by (vm_compute; reflexivity).
  apply leb_true_inv in H1; apply leb_true_inv in H2; rewrite power_key in H1, H2; split; [apply H1|apply H2].
Qed.
Lemma u53_value : u53 <= / 1000000000000000.
Proof.
  apply Rle_trans with (bpow radix2 (-50)); [apply bpow_le; lia|].
  change (bpow radix2 (-50)) with (/ 1125899906842624); apply Rinv_le; lra.
Qed.

Definition square_2 (a : f64) : f64 := nsub (nmul a a) (Fz 2).
Definition double (a : f64) : f64 := nmul (Fz 2) a.

Lemma double_exact (a : f64) : isfin a = true -> 1 <= key a <= 2 -> isfin (double a) = true /\ key (double a) = 2 * key a.
Proof.
  intros Fa Ra; destruct key_2 as (K2 & F2); unfold double.
  destruct (mul_fin (Fz 2) a F2 Fa) as (N & K); rewrite K2 in K.
  assert (ED : rnd (2 * key a) = 2 * key a) by (apply rnd_format, twice_format, format64, Fa).
  rewrite ED in K; pose proof huge_big.
  rewrite sat_id in K by (rewrite Rabs_pos_eq by lra; lra).
  split; [apply key_finite; [exact N|rewrite K, Rabs_pos_eq by lra; lra]|exact K].
Qed.

Lemma square_computed r : 0 <= r <= 0.4001 -> computed_1 square_2 (sqrt 2) r (fun x => key x + sqrt 2) 3.3 (16 * u53).
Proof.
  intros Hr x Fx Ax; destruct sqrt_2 as (S1 & S2); apply Rabs_le_inv in Ax.
  destruct (square_accurate x Fx ltac:(lra)) as (F1 & E1); split; [exact F1|]; split.
  - replace ((key x + sqrt 2) * (key x - sqrt 2)) with (key x * key x - sqrt 2 * sqrt 2) by ring.
    rewrite S2; exact E1.
  - rewrite Rabs_pos_eq; lra.
Qed.

(** The roundings of this problem. *)
Lemma square_numbers r delta b q : 0.1 <= r <= 0.4 -> 0 <= delta <= 0.0001 -> 0 <= b <= 0.6 -> 0 <= q <= 0.26 ->
  contracting 1 (fun _ => sqrt 2) r delta 3.3 (16 * u53) b q 2 /\
  (q * delta + roundings 1 b (3.3 * (r + delta) + 16 * u53) 2 (16 * u53)) / (1 - q) <= 2 * (q * delta + 40 * u53).
Proof.
  intros Hr Hd Hb Hq; pose proof u53_small as HU; pose proof tiny_pos as HT; pose proof huge_big as HH.
  destruct sqrt_2 as (S1 & S2); pose proof u53_value as UV.
  assert (H10 : 1024 <= huge) by (change 1024 with (bpow radix2 10); apply bpow_le; lia).
  assert (PH : 0 <= 3.3 * (r + delta) + 16 * u53 <= 1.4) by lra.
  set (phi := 3.3 * (r + delta) + 16 * u53) in *.
  assert (BP : 0 <= b * phi <= 0.84) by (split; [apply Rmult_le_pos; lra|apply Rle_trans with (0.6 * 1.4); [apply Rmult_le_compat; lra|lra]]).
  assert (RO : 0 <= roundings 1 b phi 2 (16 * u53) <= 40 * u53).
  { unfold roundings; change (INR 1) with 1.
    assert (0 <= b * (16 * u53) <= 0.6 * (16 * u53)) by (split; [apply Rmult_le_pos; lra|apply Rmult_le_compat_r; lra]).
    assert (0 <= u53 * (b * phi) <= u53 * 0.84) by (split; [apply Rmult_le_pos; lra|apply Rmult_le_compat_l; lra]).
    lra. }
  assert (QR : q * (r + delta) <= 0.26 * (r + delta)) by (apply Rmult_le_compat_r; lra).
  split.
  - constructor; try lra.
    + intros i Hi; cbv beta; rewrite Rabs_pos_eq by lra; lra.
    + fold phi; lra.
    + change (INR 1) with 1; lra.
    + fold phi; lra.
  - assert (QD : 0 <= q * delta) by (apply Rmult_le_pos; lra).
    apply Rmult_le_reg_r with (1 - q); [lra|].
    unfold Rdiv; rewrite Rmult_assoc, Rinv_l, Rmult_1_r by lra.
    set (w := q * delta) in *.
    assert (q * w <= 0.26 * w) by (apply Rmult_le_compat_r; lra).
    assert (q * u53 <= 0.26 * u53) by (apply Rmult_le_compat_r; lra).
    lra.
Qed.

Lemma pow_q q m : 0 <= q <= 0.26 -> q ^ m <= 0.26 ^ m.
Proof. intros H; apply pow_incr, H. Qed.

(** What a resolution promises for this problem: it succeeds within 12
    iterations, a millionth away from the root. *)
Definition finds_sqrt_2 (f : vec f64 -> vec f64) (o : outcome (rootfinder f64 * user_model f64 * result unit (solver_error Empty_set Empty_set))) : Prop :=
  exists rf' s' y, o = Ret (rf', s', Ok tt) /\ (rf_iter rf' <= 12)%nat /\ um_inputs s' = [y] /\
    isfin y = true /\ Rabs (key y - sqrt 2) <= / 500000.

Lemma finds_of_promise f r delta b q maxit o : 0.1 <= r <= 0.4 -> 0 <= delta <= / 5000000 -> 0 <= b <= 0.6 -> 0 <= q <= 0.26 ->
  (12 <= maxit)%nat ->
  promised_float f 1 (fun _ => sqrt 2) r delta 3.3 (16 * u53) b q 2 (ndec 1 1000000) maxit o ->
  (forall rf' s', o = Ret (rf', s', Ok tt) ->
     around 1 (fun _ => sqrt 2) (b * (key (ndec 1 1000000 : f64) + 16 * u53) / (1 - q)) (um_inputs s')) ->
  finds_sqrt_2 f o.
Proof.
  intros Er Hd Hb Hq HM (rf' & s' & y & EY & _ & AY & _ & _ & PR) DI.
  destruct (square_numbers r delta b q Er ltac:(lra) Hb Hq) as (_ & EB).
  destruct close_tolerance as (_ & T1 & T2); pose proof u53_value as UV; pose proof u53_small as HU.
  destruct (PR 12%nat HM) as (O1 & O2).
  - apply Rle_trans with (2 := T1); change (bpow radix2 (-20)) with (/ 1048576).
    assert (QP := pow_q q 12 Hq).
    assert (QV : 0.26 ^ 12 <= / 10000000) by lra.
    assert (QD : q * delta <= 0.26 * / 5000000) by (apply Rmult_le_compat; lra).
    assert (q ^ 12 * r <= / 10000000 * 0.4) by (apply Rmult_le_compat; try lra; apply pow_le; lra).
    set (E := (q * delta + _) / (1 - q)) in *; clearbody E; lra.
  - specialize (DI rf' s' O1); destruct (around_1 _ _ _ DI) as (v & EV & Fv & Av).
    exists rf', s', v; split; [exact O1|]; split; [exact O2|]; split; [exact EV|]; split; [exact Fv|].
    apply Rle_trans with (1 := Av).
    apply Rmult_le_reg_r with (1 - q); [lra|].
    unfold Rdiv; rewrite Rmult_assoc, Rinv_l, Rmult_1_r by lra.
    set (t := key (ndec 1 1000000 : f64)) in *; clearbody t.
    change (bpow radix2 (-19)) with (/ 524288) in T2; change (bpow radix2 (-20)) with (/ 1048576) in T1.
    assert (b * (t + 16 * u53) <= 0.6 * (/ 524288 + 16 * u53)) by (apply Rmult_le_compat; lra).
    lra.
Qed.

Example C96_case : forall x0 maxit, isfin x0 = true -> Rabs (key x0 - sqrt 2) <= 0.4 -> (12 <= maxit)%nat ->
  exists rf, rootfinder_new (mkSolverParameters 1 (ndec 1 1000000) maxit NewtonRaphson false) [x0]
    (jac_iteratives64 1) (all_abs 1) = Ret rf /\
  finds_sqrt_2 sq2 (solve (model_from_function_and_jacobian sq2 sq2_jac) rf (user_model_new 1)).
Proof.
  intros x0 maxit F0 A0 HM.
  destruct (rootfinder_new (mkSolverParameters 1 (ndec 1 1000000) maxit NewtonRaphson false) [x0]
    (jac_iteratives64 1) (all_abs 1)) as [rf|pn] eqn:HN; [|discriminate].
  exists rf; split; [reflexivity|].
  pose proof u53_small as HU; pose proof u53_value as UV; pose proof tiny_pos as HT; pose proof huge_big as HH; destruct sqrt_2 as (S1 & S2).
  destruct (C96_one_variable square_2 double (sqrt 2) 0.4 (fun x => key x + sqrt 2) 3.3 (16 * u53) 0.5 0.25 2
    (ndec 1 1000000) maxit x0 rf) as (PR & DI); try assumption.
  - apply square_computed; lra.
  - intros x Fx Ax; apply Rabs_le_inv in Ax; destruct (double_exact x Fx ltac:(lra)) as (D1 & D2).
    split; [exact D1|]; rewrite D2, (Rabs_pos_eq (2 * key x)) by lra; split; [lra|].
    apply Rabs_le; lra.
  - lra.
  - apply square_numbers; lra.
  - apply close_tolerance.
  - apply (finds_of_promise _ 0.4 0 (0.5 * (1 + u53) + tiny) (0.25 + 3.3 * (u53 * 0.5 + tiny)) maxit); try lra;
      [exact HM|exact PR|].
    intros rf' s' HO; apply (DI rf' s' HO); destruct close_tolerance as (_ & T & _).
    apply Rle_trans with (bpow radix2 (-20)); [apply bpow_ge_0|exact T].
Qed.

Lemma square_distance r y delta : around 1 (fun _ => sqrt 2) r y -> 0 <= r <= 0.4 -> 0 <= delta <= 0.0001 ->
  (forall i, (i < 1)%nat -> Rabs (ent (one_function square_2 y) i) <= key (ndec 1 1000000 : f64)) ->
  forall b q, 0.51 <= b <= 0.6 -> 0.251 <= q <= 0.26 ->
  around 1 (fun _ => sqrt 2) (b * (key (ndec 1 1000000 : f64) + 16 * u53) / (1 - q)) y.
Proof.
  intros A Hr Hd T b q Hb Hq; destruct sqrt_2 as (S1 & S2).
  pose proof u53_small as HU; pose proof u53_value as UV; pose proof tiny_pos as HT; pose proof huge_big as HH.
  destruct (around_1 _ _ _ A) as (v & -> & Fv & Av); apply Rabs_le_inv in Av.
  destruct (double_exact v Fv ltac:(lra)) as (D1 & D2).
  destruct (nearly_inverse_1 (double v) (key v + sqrt 2) 0.5 0.25 3.3 D1) as (H & _ & NI);
    [rewrite D2, Rabs_pos_eq by lra; lra|lra|rewrite D2; rewrite (Rabs_pos_eq (2 * key v)) by lra; apply Rabs_le; lra|
     rewrite Rabs_pos_eq by lra; lra|].
  destruct NI as (N1 & N2 & N3 & N4).
  assert (T0 : 0 <= key (ndec 1 1000000 : f64))
    by (apply Rle_trans with (bpow radix2 (-20)); [apply bpow_ge_0|apply close_tolerance]).
  apply (C96_distance (one_function square_2) 1 (fun _ => sqrt 2) r (slopes_1 (fun x => key x + sqrt 2)) 3.3 (16 * u53)
    b q H [v] (key (ndec 1 1000000 : f64)) (computed_of_1 _ _ _ _ _ _ (square_computed r ltac:(lra))) A);
    [|lra|lra|exact T].
  split; [exact N1|]; split; [exact N2|]; split; intros i Hi; [specialize (N3 i Hi)|specialize (N4 i Hi)]; cbv beta in *.
  - eapply Rle_trans; [exact N3|lra].
  - eapply Rle_trans; [exact N4|lra].
Qed.

(** The jacobian of the guess, kept. *)
Example C96_stationary_case : forall x0 maxit, isfin x0 = true -> Rabs (key x0 - sqrt 2) <= 0.1 -> (12 <= maxit)%nat ->
  exists rf, rootfinder_new (mkSolverParameters 1 (ndec 1 1000000) maxit (QuasiNewton StationaryNewton) false) [x0]
    (jac_iteratives64 1) (all_abs 1) = Ret rf /\
  finds_sqrt_2 sq2 (solve (model_from_function_and_jacobian sq2 sq2_jac) rf (user_model_new 1)).
Proof.
  intros x0 maxit F0 A0 HM.
  destruct (rootfinder_new (mkSolverParameters 1 (ndec 1 1000000) maxit (QuasiNewton StationaryNewton) false) [x0]
    (jac_iteratives64 1) (all_abs 1)) as [rf|pn] eqn:HN; [|discriminate].
  exists rf; split; [reflexivity|].
  pose proof u53_small as HU; pose proof u53_value as UV; pose proof tiny_pos as HT; pose proof huge_big as HH; destruct sqrt_2 as (S1 & S2).
  assert (A0' := A0); apply Rabs_le_inv in A0'.
  destruct (double_exact x0 F0 ltac:(lra)) as (D1 & D2).
  assert (NI : forall x, around 1 (fun _ => sqrt 2) 0.1 x ->
    nearly_inverse 1 [[ndiv n1 (double x0)]] (slopes_1 (fun x => key x + sqrt 2) x) 0.51 0.251).
  { intros x A; destruct (around_1 _ _ _ A) as (v & -> & Fv & Av); apply Rabs_le_inv in Av.
    destruct (nearly_inverse_1 (double x0) (key v + sqrt 2) 0.5 0.25 3.3 D1) as (H & EH & N1 & N2 & N3 & N4);
      [rewrite D2, Rabs_pos_eq by lra; lra|lra|rewrite D2; rewrite (Rabs_pos_eq (2 * key x0)) by lra; apply Rabs_le; lra|
       rewrite Rabs_pos_eq by lra; lra|].
    destruct (lift_inverse (double x0) 0.5 D1 ltac:(rewrite D2, Rabs_pos_eq by lra; lra) ltac:(lra)) as (I1 & _).
    rewrite I1 in EH; injection EH as <-.
    split; [exact N1|]; split; [exact N2|]; split; intros i Hi; [specialize (N3 i Hi)|specialize (N4 i Hi)]; cbv beta in *.
    - eapply Rle_trans; [exact N3|lra].
    - eapply Rle_trans; [exact N4|lra]. }
  assert (PR := C96_stationary sq2 sq2_jac 1 (fun _ => sqrt 2) 0.1 (slopes_1 (fun x => key x + sqrt 2)) 3.3 (16 * u53)
    0.51 0.251 2 [[ndiv n1 (double x0)]] (ndec 1 1000000) maxit [x0] rf
    (computed_of_1 _ _ _ _ _ _ (square_computed 0.1 ltac:(lra)))
    (proj1 (square_numbers 0.1 0 0.51 0.251 ltac:(lra) ltac:(lra) ltac:(lra) ltac:(lra)))
    ltac:(split; [reflexivity|]; intros l [<-|[]]; reflexivity)
    (proj1 (lift_inverse (double x0) 0.5 D1 ltac:(rewrite D2, Rabs_pos_eq by lra; lra) ltac:(lra)))
    NI (proj1 close_tolerance) (around_1_of _ _ x0 F0 A0) HN).
  apply (finds_of_promise _ 0.1 0 0.51 0.251 maxit); try lra; [exact HM|exact PR|].
  intros rf' s' HO; destruct PR as (rf1 & s1 & y & EY & _ & AY & _ & [(O1 & T)|(O1 & _)] & _); rewrite O1 in HO; [|discriminate].
  injection HO as <- <-; rewrite EY.
  apply (square_distance 0.1 y 0 AY ltac:(lra) ltac:(lra) T); lra.
Qed.

(** Without a jacobian: the finite differences of the default perturbations. *)
Lemma square_shift (x : f64) : isfin x = true -> 1 <= key x <= 1.9 ->
  let d := dflt x in let z := nadd x d in
  isfin d = true /\ isfin z = true /\ 0 <= key z - key x <= / 5000000 /\
  isfin (ndiv (nsub (square_2 z) (square_2 x)) d) = true /\
  Rabs (key (ndiv (nsub (square_2 z) (square_2 x)) d) - 2 * key x) <= 0.0001.
Proof.
  intros Fx Rx d z; pose proof u53_small as HU; pose proof u53_value as UV; pose proof tiny_pos as HT; pose proof huge_big as HH.
  assert (HB : Rabs (key x) <= bpow radix2 1022).
  { rewrite Rabs_pos_eq by lra; apply Rle_trans with (bpow radix2 1); [cbn; lra|apply bpow_le; lia]. }
  destruct (displacement x Fx HB) as (Fd & Ld & Fz & Dz); fold d in Fd, Ld, Fz, Dz; fold z in Fz, Dz.
  assert (UD : key d <= 0.00000012).
  { assert (Fk : isfin (ndec 5 100000000 : f64) = true) by (vm_compute; reflexivity).
    assert (K1 : nleb (ndec 5 100000000 : f64) (@B754_finite 53 1024 false 4503599627370496 (-76) eq_refl) = true)
      by (vm_compute; reflexivity).
    apply leb_true_inv in K1 as (_ & _ & K1); rewrite power_key in K1.
    change (bpow radix2 (52 + -76)) with (/ 16777216) in K1.
    assert (K2 : nleb (n0 : f64) (ndec 5 100000000) = true) by (vm_compute; reflexivity).
    apply leb_true_inv in K2 as (_ & _ & K2); change (key n0) with 0 in K2.
    assert (Fa : isfin (nabs x) = true) by (rewrite abs_fin; exact Fx).
    assert (KA : key (nabs x) = key x) by (rewrite key_abs, Rabs_pos_eq; lra).
    unfold d, compute_perturbation; cbn [default_iterative_params_fd fd_method fd_dx_abs fd_dx_rel].
    set (k := ndec 5 100000000 : f64) in *; clearbody k.
    assert (PK : 0 <= key x * key k <= 1.9 * / 16777216) by (split; [apply Rmult_le_pos; lra|apply Rmult_le_compat; lra]).
    destruct (rounded (key (nabs x) * key k) (nmul (nabs x) k) (mul_fin _ _ Fa Fk)) as (F1 & E1);
      [rewrite KA, Rabs_pos_eq by lra; lra|].
    rewrite KA, (Rabs_pos_eq (key x * key k)) in E1 by lra.
    destruct (nmax_key k (nmul (nabs x) k) (fin_not_nan _ Fk) (fin_not_nan _ F1)) as (_ & -> & _).
    apply Rabs_le_inv in E1.
    assert (u53 * (key x * key k) <= u53 * 1) by (apply Rmult_le_compat_l; lra).
    apply Rmax_lub; lra. }
  change (bpow radix2 (-25)) with (/ 33554432) in Ld; change (bpow radix2 (-27)) with (/ 134217728) in Dz.
  apply Rabs_le_inv in Dz.
  assert (SZ : 0 <= key z - key x <= / 5000000) by lra.
  destruct (square_accurate x Fx ltac:(lra)) as (F0 & E0); destruct (square_accurate z Fz ltac:(lra)) as (F1 & E1).
  fold (square_2 x) in F0, E0; fold (square_2 z) in F1, E1.
  assert (QF : isfin (ndiv (nsub (square_2 z) (square_2 x)) d) = true).
  { apply Rabs_le_inv in E0; apply Rabs_le_inv in E1.
    assert (Q2 : 0 <= key z * key z - key x * key x <= 1) by nra.
    destruct (rounded (key (square_2 z) - key (square_2 x)) (nsub (square_2 z) (square_2 x)) (sub_fin _ _ F1 F0)) as (F2 & E2);
      [apply Rabs_le; lra|].
    assert (A2 : Rabs (key (square_2 z) - key (square_2 x)) <= 2) by (apply Rabs_le; lra).
    assert (u53 * Rabs (key (square_2 z) - key (square_2 x)) <= u53 * 2) by (apply Rmult_le_compat_l; lra).
    set (w := nsub (square_2 z) (square_2 x)) in *; clearbody w.
    assert (A3 : Rabs (key w) <= 4) by (pose proof (Rabs_triang_inv (key w) (key (square_2 z) - key (square_2 x))); lra).
    destruct (rounded (key w / key d) (ndiv w d) (div_fin w d F2 Fd ltac:(lra))) as (F3 & _); [|exact F3].
    unfold Rdiv; rewrite Rabs_mult, Rabs_inv, (Rabs_pos_eq (key d)) by lra.
    assert (ID : / key d <= 33554432) by (rewrite <- (Rinv_inv 33554432); apply Rinv_le; lra).
    assert (0 < / key d) by (apply Rinv_0_lt_compat; lra).
    assert (H30 : bpow radix2 30 <= huge) by (apply bpow_le; lia); change (bpow radix2 30) with 1073741824 in H30.
    assert (Rabs (key w) * / key d <= 4 * 33554432) by (apply Rmult_le_compat; try lra; apply Rabs_pos).
    lra. }
  split; [exact Fd|]; split; [exact Fz|]; split; [exact SZ|]; split; [exact QF|].
  assert (SB := slope_bound (square_2 x) (square_2 z) d (key x * key x - 2) (key z * key z - 2) (key z - key x) (2 * key x) 1 (16 * u53)
    F0 F1 Fd ltac:(change (bpow radix2 (-25)) with (/ 33554432); exact Ld) QF
    ltac:(change (bpow radix2 (-27)) with (/ 134217728); apply Rabs_le; lra) E0 E1 ltac:(lra)
    ltac:(replace (key z * key z - 2 - (key x * key x - 2) - (key z - key x) * (2 * key x))
        with ((key z - key x) * (key z - key x)) by ring;
      rewrite Rabs_pos_eq by (apply Rmult_le_pos; lra); lra)).
  eapply Rle_trans; [exact SB|].
  rewrite (Rabs_pos_eq (2 * key x)) by lra.
  change (bpow radix2 (-26)) with (/ 67108864); change (bpow radix2 (-24)) with (/ 16777216).
  assert (ID : / key d <= 33554432) by (rewrite <- (Rinv_inv 33554432); apply Rinv_le; lra).
  assert (2 * (16 * u53) / key d <= 2 * (16 * u53) * 33554432) by (apply Rmult_le_compat_l; lra).
  lra.
Qed.

Example C96_finite_differences_case : forall x0 maxit, isfin x0 = true -> Rabs (key x0 - sqrt 2) <= 0.4 -> (12 <= maxit)%nat ->
  exists rf, rootfinder_new (mkSolverParameters 1 (ndec 1 1000000) maxit NewtonRaphson false) [x0]
    (fd_iteratives64 1) (all_abs 1) = Ret rf /\
  finds_sqrt_2 sq2 (solve (model_from_function sq2) rf (user_model_new 1)).
Proof.
  intros x0 maxit F0 A0 HM.
  destruct (rootfinder_new (mkSolverParameters 1 (ndec 1 1000000) maxit NewtonRaphson false) [x0]
    (fd_iteratives64 1) (all_abs 1)) as [rf|pn] eqn:HN; [|discriminate].
  exists rf; split; [reflexivity|].
  pose proof u53_small as HU; pose proof u53_value as UV; pose proof tiny_pos as HT; pose proof huge_big as HH; destruct sqrt_2 as (S1 & S2).
  assert (PR : promised_float sq2 1 (fun _ => sqrt 2) 0.4 (/ 5000000) 3.3 (16 * u53) 0.51 0.251 2 (ndec 1 1000000) maxit
    (solve (model_from_function sq2) rf (user_model_new 1))).
  { apply (C96_finite_differences sq2 1 (fun _ => sqrt 2) 0.4 (/ 5000000) (slopes_1 (fun x => key x + sqrt 2)) 3.3 (16 * u53)
      0.51 0.251 2 (fd_iteratives64 1) (map dflt) (ndec 1 1000000) maxit [x0] rf); try lia.
    - exact (computed_of_1 _ _ _ _ _ _ (square_computed (0.4 + / 5000000) ltac:(lra))).
    - apply square_numbers; lra.
    - apply fd_free.
    - reflexivity.
    - intros x A; destruct (around_1 _ _ _ A) as (v & -> & Fv & Av); apply Rabs_le_inv in Av.
      destruct (square_shift v Fv ltac:(lra)) as (Q1 & Q2 & Q3 & Q4 & Q5).
      set (k := ndiv (nsub (square_2 (nadd v (dflt v))) (square_2 v)) (dflt v)) in *.
      assert (EK : fd_float sq2 1 [v] (map dflt [v]) = [[k]]) by reflexivity.
      split.
      + split; [reflexivity|]; split; [reflexivity|]; intros [|j] Hj; [|lia].
        split; [exact Q2|]; unfold ent; cbn [map nth]; rewrite Rabs_pos_eq; lra.
      + rewrite EK; apply Rabs_le_inv in Q5.
        change (shift [v] (1 - 1) (nth (1 - 1) (map dflt [v]) n0)) with [nadd v (dflt v)].
        change (slopes_1 (fun x => key x + sqrt 2) [nadd v (dflt v)]) with (fun _ _ : nat => key (nadd v (dflt v)) + sqrt 2).
        destruct (nearly_inverse_1 k (key (nadd v (dflt v)) + sqrt 2) 0.5 0.25 3.3 Q4) as (H & EH & N1 & N2 & N3 & N4);
          [rewrite Rabs_pos_eq by lra; lra|lra|rewrite (Rabs_pos_eq (key k)) by lra; apply Rabs_le; lra|
           rewrite Rabs_pos_eq by lra; lra|].
        exists H; split; [exact EH|].
        split; [exact N1|]; split; [exact N2|]; split; intros i Hi; [specialize (N3 i Hi)|specialize (N4 i Hi)]; cbv beta in *.
        * eapply Rle_trans; [exact N3|lra].
        * eapply Rle_trans; [exact N4|lra].
    - apply close_tolerance.
    - exact (around_1_of _ _ x0 F0 A0).
    - exact HN. }
  apply (finds_of_promise _ 0.4 (/ 5000000) 0.51 0.251 maxit); try lra; [exact HM|exact PR|].
  intros rf' s' HO; destruct PR as (rf1 & s1 & y & EY & _ & AY & _ & [(O1 & T)|(O1 & _)] & _); rewrite O1 in HO; [|discriminate].
  injection HO as <- <-; rewrite EY.
  apply (square_distance 0.4 y 0 AY ltac:(lra) ltac:(lra) T); lra.
Qed.

(** Two variables, 4 x + y = 5 and x + 4 y = 5, with only the diagonal of the
    jacobian. *)
Definition pair_func (v : vec f64) : vec f64 :=
  match v with
  | [x; y] => [nsub (nadd (nmul (Fz 4) x) y) (Fz 5); nsub (nadd (nmul (Fz 4) y) x) (Fz 5)]
  | _ => []
  end.
Definition pair_jac (_ : vec f64) : mat f64 := [[Fz 4; Fz 0]; [Fz 0; Fz 4]].
Definition pair_slopes (_ : vec f64) (i j : nat) : R := if Nat.eqb i j then 4 else 1.

Lemma small_keys : isfin (Fz 4) = true /\ key (Fz 4) = 4 /\ isfin (Fz 5) = true /\ key (Fz 5) = 5.
Proof.
  split; [vm_compute; reflexivity|]; split; [|split; [vm_compute; reflexivity|]].
  - rewrite (key_sf (Fz 4) false 4503599627370496 (-50)) by (vm_compute; reflexivity).
    unfold F2R; cbn; lra.
  - rewrite (key_sf (Fz 5) false 5629499534213120 (-50)) by (vm_compute; reflexivity).
    unfold F2R; cbn; lra.
Qed.

Lemma pair_value (x y : f64) : isfin x = true -> isfin y = true -> Rabs (key x - 1) <= 1 -> Rabs (key y - 1) <= 1 ->
  isfin (nsub (nadd (nmul (Fz 4) x) y) (Fz 5)) = true /\
  Rabs (key (nsub (nadd (nmul (Fz 4) x) y) (Fz 5)) - (4 * (key x - 1) + (key y - 1))) <= 40 * u53.
Proof.
  intros Fx Fy Ax Ay; destruct small_keys as (F4 & K4 & F5 & K5).
  pose proof u53_small as HU; pose proof tiny_pos as HT; pose proof huge_big as HH.
  assert (H10 : 1024 <= huge) by (change 1024 with (bpow radix2 10); apply bpow_le; lia).
  apply Rabs_le_inv in Ax; apply Rabs_le_inv in Ay.
  destruct (rounded (key (Fz 4) * key x) (nmul (Fz 4) x) (mul_fin _ _ F4 Fx)) as (G1 & E1);
    [rewrite K4, Rabs_pos_eq by lra; lra|].
  rewrite K4, (Rabs_pos_eq (4 * key x)) in E1 by lra; set (a := nmul (Fz 4) x) in *; clearbody a.
  assert (B1 : u53 * (4 * key x) <= u53 * 8) by (apply Rmult_le_compat_l; lra); apply Rabs_le_inv in E1.
  destruct (rounded (key a + key y) (nadd a y) (add_fin _ _ G1 Fy)) as (G2 & E2); [apply Rabs_le; lra|].
  assert (B2 : u53 * Rabs (key a + key y) <= u53 * 11) by (apply Rmult_le_compat_l; [lra|apply Rabs_le; lra]).
  set (c := nadd a y) in *; clearbody c; apply Rabs_le_inv in E2.
  destruct (rounded (key c - key (Fz 5)) (nsub c (Fz 5)) (sub_fin _ _ G2 F5)) as (G3 & E3); rewrite K5 in *; [apply Rabs_le; lra|].
  assert (B3 : u53 * Rabs (key c - 5) <= u53 * 8) by (apply Rmult_le_compat_l; [lra|apply Rabs_le; lra]).
  split; [exact G3|]; apply Rabs_le_inv in E3; apply Rabs_le; lra.
Qed.

Lemma pair_inverse : exists H, lu_inverse (pair_jac []) = Some H /\
  forall x, nearly_inverse 2 H (pair_slopes x) 0.25 0.25.
Proof.
  assert (C : match lu_inverse (pair_jac []) with
    | Some [[a; b]; [c; d]] => neqb a (ndec 1 4) && neqb b n0 && neqb c n0 && neqb d (ndec 1 4)
        && (isfin a && isfin b && isfin c && isfin d)
    | _ => false end = true) by (vm_compute; reflexivity).
  destruct (lu_inverse (pair_jac [])) as [H|]; [|discriminate]; exists H; split; [reflexivity|].
  destruct H as [|[|a [|b [|? ?]]] [|[|c [|d [|? ?]]] [|? ?]]]; try discriminate.
  apply andb_prop in C as (C & C2); apply andb_prop in C2 as (C2 & F4); apply andb_prop in C2 as (C2 & F3).
  apply andb_prop in C2 as (F1 & F2); apply andb_prop in C as (C & E4); apply andb_prop in C as (C & E3).
  apply andb_prop in C as (E1 & E2).
  assert (Fq : isfin (ndec 1 4 : f64) = true) by (vm_compute; reflexivity).
  assert (Kq : key (ndec 1 4 : f64) = / 4).
  { rewrite (key_sf (ndec 1 4) false 4503599627370496 (-54)) by (vm_compute; reflexivity); unfold F2R; cbn; lra. }
  apply eqb_key in E1; [|apply fin_not_nan; assumption|apply fin_not_nan; assumption].
  apply eqb_key in E2; [|apply fin_not_nan; assumption|reflexivity].
  apply eqb_key in E3; [|apply fin_not_nan; assumption|reflexivity].
  apply eqb_key in E4; [|apply fin_not_nan; assumption|apply fin_not_nan; assumption].
  rewrite Kq in E1, E4; change (key n0) with 0 in E2, E3.
  intros x; split; [split; [reflexivity|]; intros l [<-|[<-|[]]]; reflexivity|].
  split; [intros [|[|i]] [|[|j]] Hi Hj; try lia; assumption|].
  split; intros [|[|i]] Hi; try lia; cbn [rsum].
  - change (mentf [[a; b]; [c; d]] 0 0) with (key a); change (mentf [[a; b]; [c; d]] 0 1) with (key b).
    rewrite E1, E2, Rabs_R0, Rabs_pos_eq; lra.
  - change (mentf [[a; b]; [c; d]] 1 0) with (key c); change (mentf [[a; b]; [c; d]] 1 1) with (key d).
    rewrite E3, E4, Rabs_R0, Rabs_pos_eq; lra.
  - change (mentf [[a; b]; [c; d]] 0 0) with (key a); change (mentf [[a; b]; [c; d]] 0 1) with (key b).
    unfold pair_slopes; cbn [Nat.eqb]; rewrite E1, E2.
    match goal with |- Rabs ?u + (Rabs ?v + _) <= _ => replace u with 0 by lra; replace v with (- / 4) by lra end.
    rewrite Rabs_R0, Rabs_Ropp, Rabs_pos_eq; lra.
  - change (mentf [[a; b]; [c; d]] 1 0) with (key c); change (mentf [[a; b]; [c; d]] 1 1) with (key d).
    unfold pair_slopes; cbn [Nat.eqb]; rewrite E3, E4.
    match goal with |- Rabs ?u + (Rabs ?v + _) <= _ => replace u with (- / 4) by lra; replace v with 0 by lra end.
    rewrite Rabs_R0, Rabs_Ropp, Rabs_pos_eq; lra.
Qed.

Example C96_case_2 : forall x0 y0 maxit, isfin x0 = true -> isfin y0 = true ->
  Rabs (key x0 - 1) <= 1 -> Rabs (key y0 - 1) <= 1 -> (15 <= maxit)%nat ->
  exists rf, rootfinder_new (mkSolverParameters 2 (ndec 1 1000000) maxit NewtonRaphson false) [x0; y0]
    (jac_iteratives64 2) (all_abs 2) = Ret rf /\
  exists rf' s', solve (model_from_function_and_jacobian pair_func pair_jac) rf (user_model_new 2) = Ret (rf', s', Ok tt) /\
    (rf_iter rf' <= 15)%nat /\ around 2 (fun _ => 1) (/ 1000000) (um_inputs s').
Proof.
  intros x0 y0 maxit Fx Fy Ax Ay HM.
  destruct (rootfinder_new (mkSolverParameters 2 (ndec 1 1000000) maxit NewtonRaphson false) [x0; y0]
    (jac_iteratives64 2) (all_abs 2)) as [rf|pn] eqn:HN; [|discriminate].
  exists rf; split; [reflexivity|].
  pose proof u53_small as HU; pose proof u53_value as UV; pose proof tiny_pos as HT; pose proof huge_big as HH.
  assert (H10 : 1024 <= huge) by (change 1024 with (bpow radix2 10); apply bpow_le; lia).
  assert (CP : computed pair_func 2 (fun _ => 1) 1 pair_slopes 5 (40 * u53)).
  { intros x (L & A); destruct x as [|a [|c [|? ?]]]; try discriminate.
    destruct (A O ltac:(lia)) as (Fa & Aa); destruct (A 1%nat ltac:(lia)) as (Fc & Ac).
    split; [reflexivity|]; intros [|[|i]] Hi; try lia; cbn [rsum]; unfold pair_slopes; cbn [Nat.eqb].
    - destruct (pair_value a c Fa Fc Aa Ac) as (V1 & V2); split; [exact V1|]; split.
      + change (ent (pair_func [a; c]) 0) with (key (nsub (nadd (nmul (Fz 4) a) c) (Fz 5))).
        change (ent [a; c] 0) with (key a); change (ent [a; c] 1) with (key c).
        replace (4 * (key a - 1) + (1 * (key c - 1) + 0)) with (4 * (key a - 1) + (key c - 1)) by ring; exact V2.
      + rewrite !Rabs_pos_eq by lra; lra.
    - destruct (pair_value c a Fc Fa Ac Aa) as (V1 & V2); split; [exact V1|]; split.
      + change (ent (pair_func [a; c]) 1) with (key (nsub (nadd (nmul (Fz 4) c) a) (Fz 5))).
        change (ent [a; c] 0) with (key a); change (ent [a; c] 1) with (key c).
        replace (1 * (key a - 1) + (4 * (key c - 1) + 0)) with (4 * (key c - 1) + (key a - 1)) by ring; exact V2.
      + rewrite !Rabs_pos_eq by lra; lra. }
  assert (RO : 0 <= roundings 2 0.25 (5 * (1 + 0) + 40 * u53) 2 (40 * u53) <= 30 * u53).
  { unfold roundings; change (INR 2) with 2.
    assert (0 <= u53 * (0.25 * (5 * (1 + 0) + 40 * u53)) <= u53 * 1.3) by (split; [apply Rmult_le_pos; lra|apply Rmult_le_compat_l; lra]).
    lra. }
  assert (CT : contracting 2 (fun _ => 1) 1 0 5 (40 * u53) 0.25 0.25 2).
  { constructor; try lra; [intros; rewrite Rabs_R1; lra|change (INR 2) with 2; lra]. }
  destruct pair_inverse as (H & EH & NI).
  assert (A0 : around 2 (fun _ => 1) 1 [x0; y0])
    by (split; [reflexivity|]; intros [|[|i]] Hi; try lia; split; assumption).
  assert (IV : forall x, around 2 (fun _ => 1) 1 x -> squaref 2 (pair_jac x) /\
    exists H, lu_inverse (pair_jac x) = Some H /\ nearly_inverse 2 H (pair_slopes x) 0.25 0.25).
  { intros x A; split.
    - split; [reflexivity|]; unfold pair_jac; intros l HL; cbn [In] in HL; destruct HL as [<-|[<-|[]]]; reflexivity.
    - exists H; split; [exact EH|apply NI]. }
  assert (PR := C96_newton pair_func pair_jac 2 (fun _ => 1) 1 pair_slopes 5 (40 * u53) 0.25 0.25 2 (ndec 1 1000000) maxit
    [x0; y0] rf CP CT IV (proj1 close_tolerance) A0 HN).
  destruct PR as (rf' & s' & y & EY & _ & AY & _ & TT & PR); destruct close_tolerance as (_ & T1 & T2).
  destruct (PR 15%nat HM) as (O1 & O2).
  - apply Rle_trans with (2 := T1); change (bpow radix2 (-20)) with (/ 1048576).
    set (ro := roundings _ _ _ _ _) in *; clearbody ro.
    assert (0.25 ^ 15 <= / 1000000000) by lra.
    replace ((0.25 * 0 + ro) / (1 - 0.25)) with (ro * (4 / 3)) by lra; lra.
  - exists rf', s'; split; [exact O1|]; split; [exact O2|].
    destruct TT as [(_ & TT)|(OO & _)]; [|rewrite O1 in OO; discriminate].
    rewrite EY.
    apply around_le with (0.25 * (key (ndec 1 1000000 : f64) + 40 * u53) / (1 - 0.25)).
    + apply (C96_distance pair_func 2 (fun _ => 1) 1 pair_slopes 5 (40 * u53) 0.25 0.25 H y (key (ndec 1 1000000 : f64)) CP AY (NI y));
        [lra|pose proof (bpow_ge_0 radix2 (-20)); lra|exact TT].
    + set (t := key (ndec 1 1000000 : f64)) in *; clearbody t; change (bpow radix2 (-19)) with (/ 524288) in T2.
      replace (0.25 * (t + 40 * u53) / (1 - 0.25)) with ((t + 40 * u53) / 3) by lra; lra.
Qed.
