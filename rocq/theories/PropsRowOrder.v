(** C106: on doubles, the order of the equations does not matter to the inverse, as
    long as no two entries left compete for a pivot. *)
From Coq Require Import List Arith Lia Bool ZArith Reals Lra FinFun.
From Flocq Require Import BinarySingleNaN.
From Verif Require Import Base Num F64 F64Facts F64Arith Linalg Jacobian SafeFacts Samples PropsEntries PropsFactors.
Import ListNotations.
Local Open Scope nat_scope.

(** Every pivot is greater than all the entries left below it (in particular none is NaN). *)
Definition strict_pivots {F} {NF : Num F} (n : nat) (a : nat -> nat -> F) (p : nat -> nat) (L U : nat -> nat -> F) : Prop :=
  forall i k, k < i < n -> ngtb (nabs (U k k)) (nabs (chain (L i) (fun j => U j k) k (a (p i) k))) = true.

Lemma order_onto n p : order_of n p -> forall y, y < n -> exists x, x < n /\ p x = y.
Proof.
  intros [O1 O2] y Hy; assert (B : bFun n p) by exact O1.
  destruct (proj1 (bInjective_bSurjective B) O2 y Hy) as (x & Hx & E); exists x; auto.
Qed.

Section Rearranged.
Context {F : Type} {NF : Num F}.
Context (n : nat) (a a' : nat -> nat -> F) (s : nat -> nat) (OS : order_of n s)
  (EA : forall i j, i < n -> j < n -> a' i j = a (s i) j).
Context (p : nat -> nat) (L U : nat -> nat -> F) (OP : order_of n p)
  (FA : factors n a p L U) (SP : strict_pivots n a p L U).
Context (p' : nat -> nat) (L' U' : nat -> nat -> F) (OP' : order_of n p').

Definition same_before (k : nat) : Prop :=
  forall x, x < k -> p x = s (p' x) /\ (forall j, x <= j < n -> U x j = U' x j) /\
    forall i i', x < i < n -> x < i' < n -> p i = s (p' i') -> L i x = L' i' x.

Lemma same_left k i i' : same_before k -> k <= i < n -> k <= i' < n -> p i = s (p' i') ->
  forall j, k <= j < n ->
  chain (L i) (fun x => U x j) k (a (p i) j) = chain (L' i') (fun x => U' x j) k (a' (p' i') j).
Proof using OP' EA.
  intros A Hi Hi' E j Hj; rewrite EA, <- E; [|apply (proj1 OP'); lia|lia].
  apply chain_same; intros x Hx; destruct (A x Hx) as (_ & A2 & A3).
  - apply A3; auto; lia.
  - apply A2; lia.
Qed.
(** The row [p k] is somewhere among those left. *)
Lemma same_row k : same_before k -> k < n -> exists i', k <= i' < n /\ s (p' i') = p k.
Proof using OS OP OP'.
  intros A Hk; destruct (order_onto n s OS (p k)) as (y & Hy & Ey); [apply (proj1 OP), Hk|].
  destruct (order_onto n p' OP' y Hy) as (i' & Hi & Ei); exists i'; rewrite Ei, Ey; split; [|reflexivity].
  split; [|exact Hi]; destruct (Nat.le_gt_cases k i') as [|LT]; [assumption|exfalso].
  destruct (A i' LT) as (E & _); rewrite Ei, Ey in E; apply (proj2 OP) in E; lia.
Qed.
Lemma same_row' k : same_before k -> k < n -> exists i, k <= i < n /\ p i = s (p' k).
Proof using OS OP OP'.
  intros A Hk; destruct (order_onto n p OP (s (p' k))) as (i & Hi & Ei); [apply (proj1 OS), (proj1 OP'), Hk|].
  exists i; split; [|exact Ei]; split; [|exact Hi]; destruct (Nat.le_gt_cases k i) as [|LT]; [assumption|exfalso].
  destruct (A i LT) as (E & _); rewrite Ei in E; apply (proj2 OS) in E; try (apply (proj1 OP'); lia).
  apply (proj2 OP') in E; lia.
Qed.
Context (m : nat) (Hm : m <= n)
  (G1 : forall k j, k < m -> k <= j < n -> U' k j = chain (L' k) (fun i => U' i j) k (a' (p' k) j))
  (G2 : forall i k, k < m -> k < i < n ->
     L' i k = nmul (chain (L' i) (fun j => U' j k) k (a' (p' i) k)) (ndiv n1 (U' k k)))
  (G4 : forall i k, k < m -> k < i < n ->
     ngtb (nabs (chain (L' i) (fun j => U' j k) k (a' (p' i) k))) (nabs (U' k k)) = false).
Lemma same_all : forall k, k <= m -> same_before k.
Proof using OS EA OP FA SP OP' Hm G1 G2 G4.
  destruct FA as (F1 & F2 & _ & _).
  induction k as [|k IH]; intros Hk; [intros x Hx; lia|].
  assert (A := IH ltac:(lia)); intros x Hx; destruct (Nat.eq_dec x k) as [->|D]; [|apply A; lia].
  assert (EP : p k = s (p' k)).
  { destruct (same_row k A) as (i' & Hi' & Ei'); [lia|]; destruct (same_row' k A) as (i & Hi & Ei); [lia|].
    destruct (Nat.eq_dec i k) as [->|D]; [exact Ei|exfalso].
    assert (D' : i' <> k) by (intros ->; rewrite <- Ei in Ei'; apply (proj2 OP) in Ei'; lia).
    assert (V := F1 k k ltac:(lia)); rewrite (same_left k k i' A) in V; [|lia|lia|auto|lia].
    assert (V' := G1 k k ltac:(lia) ltac:(lia)); rewrite <- (same_left k i k A) in V'; [|lia|lia|exact Ei|lia].
    assert (Q := SP i k ltac:(lia)); assert (Q' := G4 i' k ltac:(lia) ltac:(lia)).
    rewrite <- V, V' in Q'; congruence. }
  assert (EU : forall j, k <= j < n -> U k j = U' k j).
  { intros j Hj; rewrite (F1 k j Hj), (G1 k j) by lia; apply same_left; auto; lia. }
  split; [exact EP|]; split; [exact EU|].
  intros i i' Hi Hi' E; rewrite (F2 i k Hi), (G2 i' k) by lia; rewrite (EU k) by lia; f_equal.
  apply same_left; auto; lia.
Qed.
End Rearranged.

Lemma chain_down_same {F} {NF : Num F} (l v l' v' : nat -> F) k n x x' :
  (forall i, k < i < n -> l i = l' i) -> (forall i, k < i < n -> v i = v' i) -> x = x' ->
  chain_down l v k n x = chain_down l' v' k n x'.
Proof.
  intros Q1 Q2 <-; unfold chain_down.
  assert (Q : forall i, In i (seq (S k) (n - S k)) -> l i = l' i /\ v i = v' i)
    by (intros i Hi; apply in_seq in Hi; split; [apply Q1|apply Q2]; lia).
  clear Q1 Q2; induction (seq (S k) (n - S k)) as [|i t IH]; [reflexivity|].
  cbn [fold_right]; destruct (Q i (or_introl eq_refl)) as [-> ->]; rewrite IH; [reflexivity|].
  intros j Hj; apply Q; right; exact Hj.
Qed.

(** The inverse of the rearranged matrix in terms of the factors of the first. *)
Lemma rearranged_inverse n (A A' : mat f64) s p L U : square_of n A' -> order_of n s ->
  (forall i j, i < n -> j < n -> entry A' i j = entry A (s i) j) ->
  order_of n p -> factors n (entry A) p L U -> strict_pivots n (entry A) p L U ->
  exists H Y, lu_inverse A' = Some H /\
    (forall k c, k < n -> c < n -> Y k c = chain (L k) (fun i => Y i c) k (if Nat.eqb (p k) (s c) then n1 else n0)) /\
    (forall k c, k < n -> c < n -> entry H k c = ndiv (chain_down (U k) (fun i => entry H i c) k n (Y k c)) (U k k)).
Proof.
  intros QA OS EA OP FA SP; destruct (lu_inverse A') as [H|] eqn:EH.
  - destruct (C105_inverse n A' H QA EH) as (_ & p' & L' & U' & Y & e & OP' & (G1 & G2 & G3 & G4) & _ & FY & FH).
    assert (S := same_all n (entry A) (entry A') s OS EA p L U OP FA SP p' L' U' OP' n (le_n n)
      (fun k j _ => G1 k j) (fun i k _ => G2 i k) (fun i k _ => G4 i k) n (le_n n)).
    exists H, Y; split; [reflexivity|]; split.
    + intros k c Hk Hc; rewrite (FY k c Hk Hc); destruct (S k Hk) as (EP & _).
      replace (Nat.eqb (p k) (s c)) with (Nat.eqb (p' k) c).
      * apply chain_same; [|reflexivity]; intros x Hx; symmetry; apply (S x); auto; lia.
      * rewrite EP; destruct (Nat.eqb_spec (p' k) c) as [->|D]; [rewrite Nat.eqb_refl; reflexivity|].
        destruct (Nat.eqb_spec (s (p' k)) (s c)) as [E|]; [|reflexivity].
        apply (proj2 OS) in E; [congruence|apply (proj1 OP'), Hk|exact Hc].
    + intros k c Hk Hc; rewrite (FH k c Hk Hc); destruct (S k Hk) as (_ & EU & _); rewrite (EU k) by lia; f_equal.
      apply chain_down_same; auto; intros i Hi; symmetry; apply EU; lia.
  - exfalso; destruct (C105_no_inverse n A' QA EH) as (p' & L' & U' & last & OP' & (Hl & G1 & G2 & _ & G4 & G5 & _) & ST).
    assert (S := same_all n (entry A) (entry A') s OS EA p L U OP FA SP p' L' U' OP' last (Nat.lt_le_incl _ _ Hl)
      G1 G2 G4 last (le_n last)).
    destruct (same_row n s OS p L U OP p' L' U' OP' last S Hl) as (i' & Hi' & Ei').
    assert (V := proj1 FA last last ltac:(lia)).
    rewrite (same_left n (entry A) (entry A') s EA p L U p' L' U' OP' last last i' S) in V; [|lia|lia|auto|lia].
    assert (NZ := proj1 (proj2 (proj2 FA)) last Hl).
    destruct (Nat.eq_dec (Datatypes.S last) n) as [E|D].
    + replace i' with last in V by lia; rewrite V in NZ; congruence.
    + assert (Q := SP (Datatypes.S last) last ltac:(lia)); unfold ngtb in Q; apply ltb_true_inv in Q; destruct Q as (_ & Q & _).
      rewrite abs_nan in Q; assert (Z := ST i' Hi'); cbn zeta in Z; rewrite <- V in Z; destruct Z; congruence.
Qed.

Theorem C106_inverse : forall n (A A' H : mat f64) s p L U, square_of n A -> square_of n A' -> order_of n s ->
  (forall i j, i < n -> j < n -> entry A' i j = entry A (s i) j) ->
  order_of n p -> factors n (entry A) p L U -> strict_pivots n (entry A) p L U ->
  lu_inverse A = Some H ->
  exists H', lu_inverse A' = Some H' /\ square_of n H' /\
    forall k c, k < n -> c < n -> entry H' k c = entry H k (s c).
Proof.
  intros n A A' H s p L U QA QA' OS EA OP FA SP EH.
  destruct (rearranged_inverse n A A' s p L U QA' OS EA OP FA SP) as (H' & Y' & EH' & FY' & FH').
  destruct (rearranged_inverse n A A (fun i => i) p L U QA) as (H0 & Y & EH0 & FY & FH); auto.
  { split; auto. }
  rewrite EH in EH0; injection EH0 as <-.
  exists H'; split; [exact EH'|]; split; [exact (lu_inverse_square n A' H' (proj1 QA') EH')|].
  assert (EY : forall k, k < n -> forall c, c < n -> Y' k c = Y k (s c)).
  { intros k; induction k as [k IH] using lt_wf_ind; intros Hk c Hc.
    rewrite (FY' k c Hk Hc), (FY k (s c) Hk (proj1 OS c Hc)); apply chain_same; [reflexivity|].
    intros i Hi; apply IH; auto; lia. }
  assert (G : forall d k, n - k <= d -> k < n -> forall c, c < n -> entry H' k c = entry H k (s c)).
  { induction d as [|d IH]; intros k Hd Hk c Hc; [lia|].
    rewrite (FH' k c Hk Hc), (FH k (s c) Hk (proj1 OS c Hc)); f_equal.
    apply chain_down_same; [reflexivity| |apply EY; assumption].
    intros i Hi; apply IH; auto; lia. }
  intros k c Hk Hc; apply (G n); auto; lia.
Qed.
Print Assumptions C106_inverse.

(** The condition is needed: two equal entries compete for the first pivot of
    [1 1; 1 6], and the two orders of the equations give different inverses. *)
Theorem C106_ties_refuted : exists A A' H H' : mat f64,
  square_of 2 A /\ square_of 2 A' /\ (forall i j, i < 2 -> j < 2 -> entry A' i j = entry A (1 - i) j) /\
  lu_inverse A = Some H /\ lu_inverse A' = Some H' /\
  exists k c, k < 2 /\ c < 2 /\ entry H' k c <> entry H k (1 - c).
Proof.
  set (A := [[Fz 1; Fz 1]; [Fz 1; Fz 6]]); set (A' := [[Fz 1; Fz 6]; [Fz 1; Fz 1]]).
  assert (T : match lu_inverse A, lu_inverse A' with
    | Some H, Some H' => nltb (entry H 0 1) (entry H' 0 0) || nltb (entry H' 0 0) (entry H 0 1)
    | _, _ => false
    end = true) by (vm_compute; reflexivity).
  destruct (lu_inverse A) as [H|] eqn:E; [|discriminate T]; destruct (lu_inverse A') as [H'|] eqn:E'; [|discriminate T].
  exists A, A', H, H'.
  split; [split; [reflexivity|intros r [<-|[<-|[]]]; reflexivity]|].
  split; [split; [reflexivity|intros r [<-|[<-|[]]]; reflexivity]|].
  split; [intros [|[|i]] [|[|j]] Hi Hj; try lia; reflexivity|].
  split; [exact E|]; split; [exact E'|]; exists 0, 0; split; [lia|]; split; [lia|].
  intros X; rewrite X in T; change (1 - 0) with 1 in T.
  apply orb_true_iff in T; destruct T as [T|T]; assert (G := greater_irreflexive (entry H 0 1)); unfold ngtb in G; congruence.
Qed.
Print Assumptions C106_ties_refuted.

(** ** The Newton step *)
(** [- H * residuals], rootfinder.rs:293. With two equations it is the same too, the sum of two products being
    commutative. *)
Theorem C106_two_equations : forall (A A' H : mat f64) (r r' : vec f64) s p L U, square_of 2 A -> square_of 2 A' ->
  order_of 2 s -> (forall i j, i < 2 -> j < 2 -> entry A' i j = entry A (s i) j) ->
  order_of 2 p -> factors 2 (entry A) p L U -> strict_pivots 2 (entry A) p L U ->
  length r = 2 -> length r' = 2 -> (forall i, i < 2 -> nth i r' n0 = nth (s i) r n0) ->
  lu_inverse A = Some H ->
  exists H', lu_inverse A' = Some H' /\ mat_vec (mat_neg H') r' = mat_vec (mat_neg H) r.
Proof.
  intros A A' H r r' s p L U QA QA' OS EA OP FA SP Lr Lr' Er EH.
  destruct (C106_inverse 2 A A' H s p L U QA QA' OS EA OP FA SP EH) as (H' & EH' & QH' & EE).
  exists H'; split; [exact EH'|]; assert (QH := lu_inverse_square 2 A H (proj1 QA) EH).
  destruct r as [|r0 [|r1 [|? ?]]]; try discriminate Lr; destruct r' as [|q0 [|q1 [|? ?]]]; try discriminate Lr'.
  destruct QH as [LH RH], QH' as [LH' RH'].
  destruct H as [|h0 [|h1 [|? ?]]]; try discriminate LH; destruct H' as [|g0 [|g1 [|? ?]]]; try discriminate LH'.
  assert (L0 := RH h0 (or_introl eq_refl)); assert (L1 := RH h1 (or_intror (or_introl eq_refl))).
  assert (M0 := RH' g0 (or_introl eq_refl)); assert (M1 := RH' g1 (or_intror (or_introl eq_refl))).
  destruct h0 as [|h00 [|h01 [|? ?]]]; try discriminate L0; destruct h1 as [|h10 [|h11 [|? ?]]]; try discriminate L1.
  destruct g0 as [|g00 [|g01 [|? ?]]]; try discriminate M0; destruct g1 as [|g10 [|g11 [|? ?]]]; try discriminate M1.
  assert (E00 := EE 0 0 ltac:(lia) ltac:(lia)); assert (E01 := EE 0 1 ltac:(lia) ltac:(lia)).
  assert (E10 := EE 1 0 ltac:(lia) ltac:(lia)); assert (E11 := EE 1 1 ltac:(lia) ltac:(lia)).
  assert (R0 := Er 0 ltac:(lia)); assert (R1 := Er 1 ltac:(lia)).
  destruct OS as [O1 O2]; assert (S0 := O1 0 ltac:(lia)); assert (S1 := O1 1 ltac:(lia)).
  assert (D : s 0 <> s 1) by (intros X; apply O2 in X; lia).
  unfold entry in E00, E01, E10, E11; cbn [nth] in E00, E01, E10, E11, R0, R1.
  cbn [mat_vec mat_neg map]; unfold dot; cbn [map2 fold_left].
  destruct (s 0) as [|[|x]], (s 1) as [|[|y]]; try lia; cbn [nth] in *; subst.
  - reflexivity.
  - rewrite (add_comm (nmul (nneg h01) r1)), (add_comm (nmul (nneg h11) r1)); reflexivity.
Qed.
Print Assumptions C106_two_equations.

(** With three the sums are rounded in another order: the steps differ although the
    inverses agree. The differences of three variables, residuals 1, 2^60, -2^60. *)
Definition differences : mat f64 := [[Fz 1; Fz (-1); Fz 0]; [Fz 0; Fz 1; Fz (-1)]; [Fz 0; Fz 0; Fz 1]].
Lemma differences_factors : order_of 3 (fun i => i) /\
  factors 3 (entry differences) (fun i => i) (fun _ _ => Fz 0) (entry differences) /\
  strict_pivots 3 (entry differences) (fun i => i) (fun _ _ => Fz 0) (entry differences).
Proof.
  split; [split; auto|]; split; [split; [|split; [|split]]|].
  - intros [|[|[|k]]] [|[|[|j]]] Hkj; try lia; apply B2SF_inj; vm_compute; reflexivity.
  - intros [|[|[|i]]] [|[|[|k]]] Hik; try lia; apply B2SF_inj; vm_compute; reflexivity.
  - intros [|[|[|k]]] Hk; try lia; vm_compute; reflexivity.
  - intros [|[|[|i]]] [|[|[|k]]] Hik; try lia; vm_compute; reflexivity.
  - intros [|[|[|i]]] [|[|[|k]]] Hik; try lia; vm_compute; reflexivity.
Qed.
Theorem C106_three_equations_refuted : exists (A A' H H' : mat f64) (r r' : vec f64) (s : nat -> nat),
  square_of 3 A /\ square_of 3 A' /\ order_of 3 s /\
  (forall i j, i < 3 -> j < 3 -> entry A' i j = entry A (s i) j) /\
  length r = 3 /\ length r' = 3 /\ (forall i, i < 3 -> nth i r' n0 = nth (s i) r n0) /\
  lu_inverse A = Some H /\ lu_inverse A' = Some H' /\
  (forall k c, k < 3 -> c < 3 -> entry H' k c = entry H k (s c)) /\ mat_vec (mat_neg H') r' <> mat_vec (mat_neg H) r.
Proof.
  set (A := differences); set (A' := rev differences); set (r := [Fz 1; Fz (2 ^ 60); Fz (- 2 ^ 60)]).
  assert (T : match lu_inverse A, lu_inverse A' with
    | Some H, Some H' => nltb (nth 0 (mat_vec (mat_neg H') (rev r)) n0) (nth 0 (mat_vec (mat_neg H) r) n0)
    | _, _ => false
    end = true) by (vm_compute; reflexivity).
  assert (QA : square_of 3 A) by (split; [reflexivity|intros x [<-|[<-|[<-|[]]]]; reflexivity]).
  assert (QA' : square_of 3 A') by (split; [reflexivity|intros x [<-|[<-|[<-|[]]]]; reflexivity]).
  assert (OS : order_of 3 (fun i => 2 - i)) by (split; intros; lia).
  assert (EA : forall i j, i < 3 -> j < 3 -> entry A' i j = entry A (2 - i) j)
    by (intros [|[|[|i]]] j Hi Hj; try lia; reflexivity).
  destruct differences_factors as (OP & FA & SP).
  destruct (lu_inverse A) as [H|] eqn:E; [|discriminate T].
  destruct (C106_inverse 3 A A' H _ _ _ _ QA QA' OS EA OP FA SP E) as (H' & E' & _ & EE).
  rewrite E' in T; exists A, A', H, H', r, (rev r), (fun i => 2 - i).
  do 4 (split; [assumption|]); split; [reflexivity|]; split; [reflexivity|].
  split; [intros [|[|[|i]]] Hi; try lia; reflexivity|].
  do 3 (split; [assumption|]); intros X; rewrite X in T.
  assert (G := greater_irreflexive (nth 0 (mat_vec (mat_neg H) r) n0)); unfold ngtb in G; congruence.
Qed.
Print Assumptions C106_three_equations_refuted.

(** A case: the differences of three variables, in any order of the equations. *)
Example C106_case : forall A' H s, square_of 3 A' -> order_of 3 s ->
  (forall i j, i < 3 -> j < 3 -> entry A' i j = entry differences (s i) j) -> lu_inverse differences = Some H ->
  exists H', lu_inverse A' = Some H' /\ forall k c, k < 3 -> c < 3 -> entry H' k c = entry H k (s c).
Proof.
  intros A' H s QA' OS EA EH; destruct differences_factors as (OP & FA & SP).
  assert (QA : square_of 3 differences) by (split; [reflexivity|intros x [<-|[<-|[<-|[]]]]; reflexivity]).
  destruct (C106_inverse 3 differences A' H s _ _ _ QA QA' OS EA OP FA SP EH) as (H' & E' & _ & EE).
  exists H'; auto.
Qed.
Example C106_case_found : found differences = true /\ found (rev differences) = true.
Proof. split; vm_compute; reflexivity. Qed.
(** Two equations: 2 x + y and x + 3 y. *)
Definition pair : mat f64 := [[Fz 2; Fz 1]; [Fz 1; Fz 3]].
Example C106_case_two : forall a b, exists H H', lu_inverse pair = Some H /\ lu_inverse (rev pair) = Some H' /\
  mat_vec (mat_neg H') [b; a] = mat_vec (mat_neg H) [a; b].
Proof.
  intros a b; assert (T : found pair = true) by (vm_compute; reflexivity); unfold found in T.
  destruct (lu_inverse pair) as [H|] eqn:E; [|discriminate T]; exists H.
  destruct (C106_two_equations pair (rev pair) H [a; b] [b; a] (fun i => 1 - i) (fun i => i)
    (fun _ _ => ndiv (Fz 1) (Fz 2)) (entry [[Fz 2; Fz 1]; [Fz 0; ndiv (Fz 5) (Fz 2)]])) as (H' & E' & EE); auto.
  - split; [reflexivity|intros x [<-|[<-|[]]]; reflexivity].
  - split; [reflexivity|intros x [<-|[<-|[]]]; reflexivity].
  - split; intros; lia.
  - intros [|[|i]] j Hi Hj; try lia; reflexivity.
  - split; auto.
  - split; [|split; [|split]].
    + intros [|[|k]] [|[|j]] Hkj; try lia; apply B2SF_inj; vm_compute; reflexivity.
    + intros [|[|i]] [|[|k]] Hik; try lia; apply B2SF_inj; vm_compute; reflexivity.
    + intros [|[|k]] Hk; try lia; vm_compute; reflexivity.
    + intros [|[|i]] [|[|k]] Hik; try lia; vm_compute; reflexivity.
  - intros [|[|i]] [|[|k]] Hik; try lia; vm_compute; reflexivity.
  - intros [|[|i]] Hi; try lia; reflexivity.
  - exists H'; auto.
Qed.
