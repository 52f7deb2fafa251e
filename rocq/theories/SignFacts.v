(** Doubles equal up to a change of sign and the sign of zeros, through the
    operations, the products and the elimination. Proof file, no definition of
    the model. *)
From Coq Require Import Reals Lra Lia ZArith List Bool.
From Flocq Require Import Core BinarySingleNaN.
From Verif Require Import Base Num F64 Linalg F64Facts F64Arith.
Import ListNotations.
Open Scope R_scope.

(** [y] is the number [x], or [- x] when [b]. *)
Definition sgn (b : bool) (r : R) : R := if b then - r else r.
Definition sg (b : bool) (x y : f64) : Prop := isnan y = isnan x /\ key y = sgn b (key x).
Definition flip (b : bool) (x : f64) : f64 := if b then nneg x else x.

Lemma sg_flip b x : sg b x (flip b x).
Proof. destruct b; split; cbn [flip sgn]; auto using opp_nan, key_opp. Qed.
Lemma sg_refl x : sg false x x.
Proof. split; reflexivity. Qed.
Lemma sg_abs b x y : sg b x y -> nabs y = nabs x.
Proof.
  intros (N & K); destruct (isnan x) eqn:Nx.
  - destruct x, y; try discriminate; reflexivity.
  - apply key_inj_abs; [exact N|exact Nx|]; rewrite !key_abs, K; destruct b; [apply Rabs_Ropp|reflexivity].
Qed.
Definition iszero (x : f64) : bool := match x with B754_zero _ => true | _ => false end.
Lemma key_zero x : isnan x = false -> key x = 0 -> iszero x = true.
Proof.
  intros N K; destruct x as [s|[]| |s m e He]; try discriminate; [reflexivity| | |exfalso].
  1,2: pose proof big_pos as B; unfold big in B; cbn [key] in K; lra.
  rewrite key_fin in K by reflexivity; cbn [B2R] in K; destruct s; cbn [SpecFloat.cond_Zopp] in K.
  - apply Rlt_not_eq in K; [exact K|]; apply F2R_lt_0; cbn; lia.
  - apply Rgt_not_eq in K; [exact K|]; apply F2R_gt_0; cbn; lia.
Qed.
Lemma sg_cases b x y : sg b x y -> y = flip b x \/ (iszero x = true /\ iszero y = true).
Proof.
  intros S; assert (A := sg_abs b x y S); destruct S as (N & K).
  destruct (isnan x) eqn:Nx; [left; destruct x, y, b; try discriminate; reflexivity|].
  destruct (abs_eq_cases x y (eq_sym A)) as [-> | ->]; destruct b; cbn [flip sgn] in *; auto; right.
  - assert (Z : key x = 0) by lra; split; apply key_zero; assumption.
  - rewrite key_opp in K; assert (Z : key x = 0) by lra.
    assert (I := key_zero x Nx Z); split; [exact I|]; destruct x; try discriminate; reflexivity.
Qed.
Lemma sg_zeros b x y : iszero x = true -> iszero y = true -> sg b x y.
Proof. intros; destruct x, y; try discriminate; split; [reflexivity|]; destruct b; cbn; lra. Qed.
Lemma sg_fin b x y : sg b x y -> isfin y = isfin x.
Proof.
  intros S; destruct (sg_cases b x y S) as [-> | [Z1 Z2]]; [destruct b; [apply opp_fin|reflexivity]|].
  destruct x, y; try discriminate; reflexivity.
Qed.
Lemma sg_nan b x y : isnan x = true -> isnan y = true -> sg b x y.
Proof. intros; destruct x, y; try discriminate; split; [reflexivity|]; destruct b; cbn; lra. Qed.
Lemma sg_of b x y : y = flip b x -> sg b x y.
Proof. intros ->; apply sg_flip. Qed.
Lemma sg_neg b x y : sg b x y -> sg b (nneg x) (nneg y).
Proof. intros (N & K); split; [rewrite !opp_nan; exact N|]; rewrite !key_opp, K; destruct b; reflexivity. Qed.
Lemma sg_neg_r b x y : sg b x y -> sg (negb b) x (nneg y).
Proof. intros (N & K); split; [rewrite opp_nan; exact N|]; rewrite key_opp, K; destruct b; cbn [sgn negb]; lra. Qed.

(** ** The operations *)
Ltac by_cases S := let Z1 := fresh in let Z2 := fresh in destruct (sg_cases _ _ _ S) as [-> | [Z1 Z2]].
Ltac finish_sg :=
  repeat match goal with b : bool |- _ => destruct b end; try discriminate;
  cbn; try (apply sg_nan; reflexivity); try (apply sg_zeros; reflexivity); try (apply sg_of; reflexivity).

Lemma sg_add b x y u v : sg b x y -> sg b u v -> sg b (nadd x u) (nadd y v).
Proof.
  intros S1 S2; assert (F1 := sg_fin _ _ _ S1); assert (F2 := sg_fin _ _ _ S2).
  destruct (isfin x) eqn:Fx; [destruct (isfin u) eqn:Fu|].
  - destruct (add_fin x u Fx Fu) as (N1 & K1); destruct (add_fin y v F1 F2) as (N2 & K2).
    split; [congruence|]; rewrite K1, K2, (proj2 S1), (proj2 S2); destruct b; cbn [sgn]; [|reflexivity].
    rewrite <- sat_opp, <- rnd_opp; f_equal; f_equal; ring.
  - by_cases S2; [|destruct u; discriminate].
    destruct u as [|su| |]; try discriminate; destruct x as [sx| | |sx]; try discriminate;
      destruct y as [sy| | |sy]; try discriminate; finish_sg.
  - by_cases S1; [|destruct x; discriminate].
    destruct x as [|sx| |]; try discriminate; by_cases S2;
      destruct u as [su|su| |su]; try discriminate; try destruct v as [sv| | |]; try discriminate; finish_sg.
Qed.
Lemma sgn_mul b c p q : sgn b p * sgn c q = sgn (xorb b c) (p * q).
Proof. destruct b, c; cbn [sgn xorb]; ring. Qed.
Lemma sgn_round b r : sat (rnd (sgn b r)) = sgn b (sat (rnd r)).
Proof. destruct b; cbn [sgn]; [rewrite rnd_opp, sat_opp|]; reflexivity. Qed.

Lemma sg_sub b x y u v : sg b x y -> sg b u v -> sg b (nsub x u) (nsub y v).
Proof.
  intros S1 S2; destruct (isnan x) eqn:Nx; [|destruct (isnan u) eqn:Nu].
  - apply sg_nan; [destruct x; try discriminate; reflexivity|].
    destruct S1 as (N & _); rewrite Nx in N; destruct y; try discriminate; reflexivity.
  - apply sg_nan; [destruct x, u; try discriminate; reflexivity|].
    destruct S2 as (N & _); rewrite Nu in N; destruct y, v; try discriminate; reflexivity.
  - rewrite !sub_add; auto; [apply sg_add; [exact S1|apply sg_neg, S2]| |].
    + rewrite (proj1 S1); exact Nx.
    + rewrite (proj1 S2); exact Nu.
Qed.

Lemma sg_mul b c x y u v : sg b x y -> sg c u v -> sg (xorb b c) (nmul x u) (nmul y v).
Proof.
  intros S1 S2; assert (F1 := sg_fin _ _ _ S1); assert (F2 := sg_fin _ _ _ S2).
  destruct (isfin x) eqn:Fx; [destruct (isfin u) eqn:Fu|].
  - destruct (mul_fin x u Fx Fu) as (N1 & K1); destruct (mul_fin y v F1 F2) as (N2 & K2).
    split; [congruence|]; rewrite K1, K2, (proj2 S1), (proj2 S2), sgn_mul; apply sgn_round.
  - by_cases S2; [|destruct u; discriminate]; by_cases S1;
    destruct u as [|su| |]; try discriminate; destruct x as [sx| | |sx]; try discriminate;
      try (destruct y as [sy| | |sy]; try discriminate); finish_sg.
  - by_cases S1; [|destruct x; discriminate].
    destruct x as [|sx| |]; try discriminate; by_cases S2;
      destruct u as [su|su| |su]; try discriminate; try destruct v as [sv| | |]; try discriminate; finish_sg.
Qed.

Lemma sg_nonzero b x y : sg b x y -> neqb y n0 = neqb x n0.
Proof.
  intros S; by_cases S; [|destruct x, y; try discriminate; reflexivity].
  destruct b, x as [[]|[]| |[]]; reflexivity.
Qed.
Lemma sg_div b c x y u v : sg b x y -> sg c u v -> neqb u n0 = false -> sg (xorb b c) (ndiv x u) (ndiv y v).
Proof.
  intros S1 S2 NZ; assert (F1 := sg_fin _ _ _ S1); assert (F2 := sg_fin _ _ _ S2).
  assert (NV := sg_nonzero _ _ _ S2); rewrite NZ in NV.
  assert (KZ : forall w : f64, isfin w = true -> neqb w n0 = false -> key w <> 0).
  { intros w Fw Hw K; apply key_zero in K; [|destruct w; try discriminate; reflexivity].
    destruct w as [[]| | |]; discriminate. }
  destruct (isfin x) eqn:Fx; [destruct (isfin u) eqn:Fu|].
  - destruct (div_fin x u Fx Fu (KZ u Fu NZ)) as (N1 & K1); destruct (div_fin y v F1 F2 (KZ v F2 NV)) as (N2 & K2).
    split; [congruence|]; rewrite K1, K2, (proj2 S1), (proj2 S2), <- sgn_round; f_equal; f_equal.
    assert (H := KZ u Fu NZ); destruct b, c; cbn [sgn xorb]; field; exact H.
  - by_cases S2; [|destruct u; discriminate]; by_cases S1;
    destruct u as [|su| |]; try discriminate; destruct x as [sx| | |sx]; try discriminate;
      try (destruct y as [sy| | |sy]; try discriminate); finish_sg.
  - by_cases S1; [|destruct x; discriminate].
    destruct x as [|sx| |]; try discriminate; by_cases S2;
      destruct u as [su|su| |su]; try discriminate; try destruct v as [sv| | |]; try discriminate; finish_sg.
Qed.
Lemma sg_div_same b x y u : sg b x y -> sg b (ndiv x u) (ndiv y u).
Proof.
  intros S; destruct (neqb u n0) eqn:Z.
  - assert (ZU : iszero u = true) by (destruct u as [|[]| |[]]; try discriminate; reflexivity).
    by_cases S; destruct u as [su| | |]; try discriminate; destruct x as [sx|sx| |sx mx ex Hx]; try discriminate;
      try (destruct y; try discriminate); finish_sg.
  - replace b with (xorb b false) by (destruct b; reflexivity); apply sg_div; [exact S|apply sg_refl|exact Z].
Qed.

(** ** Rows and matrices: entry [j] of a row with the sign [s] has the sign
    [s] times that of column [j] *)
Fixpoint srow (s : bool) (d : list bool) (r r' : vec f64) : Prop :=
  match d, r, r' with
  | [], [], [] => True
  | c :: d', x :: t, y :: t' => sg (xorb s c) x y /\ srow s d' t t'
  | _, _, _ => False
  end.
Fixpoint smat (e d : list bool) (A A' : mat f64) : Prop :=
  match e, A, A' with
  | [], [], [] => True
  | s :: e', r :: t, r' :: t' => srow s d r r' /\ smat e' d t t'
  | _, _, _ => False
  end.

Lemma srow_length s : forall d r r', srow s d r r' -> length r = length d /\ length r' = length d.
Proof.
  induction d as [|c d IH]; intros [|x t] [|y t'] H; try contradiction; [split; reflexivity|].
  destruct H as (_ & H); destruct (IH t t' H) as (E1 & E2); cbn [length]; rewrite E1, E2; split; reflexivity.
Qed.
Lemma smat_length d : forall e A A', smat e d A A' -> length A = length e /\ length A' = length e.
Proof.
  induction e as [|s e IH]; intros [|r t] [|r' t'] H; try contradiction; [split; reflexivity|].
  destruct H as (_ & H); destruct (IH t t' H) as (E1 & E2); cbn [length]; rewrite E1, E2; split; reflexivity.
Qed.
Lemma srow_map_seq s (g g' : nat -> f64) : forall d k,
  (forall j, (j < length d)%nat -> sg (xorb s (nth j d false)) (g (k + j)%nat) (g' (k + j)%nat)) ->
  srow s d (map g (seq k (length d))) (map g' (seq k (length d))).
Proof.
  induction d as [|c d IH]; intros k H; [exact I|]; cbn [length seq map]; split.
  - assert (Q := H O ltac:(cbn [length]; lia)); rewrite Nat.add_0_r in Q; exact Q.
  - apply IH; intros j Hj; replace (S k + j)%nat with (k + S j)%nat by lia; apply (H (S j)); cbn [length]; lia.
Qed.
Lemma srow_nth s : forall d r r' j, srow s d r r' -> (j < length d)%nat ->
  sg (xorb s (nth j d false)) (nth j r n0) (nth j r' n0).
Proof.
  induction d as [|c d IH]; intros [|x t] [|y t'] [|j] H Hj; try contradiction; cbn [length] in Hj; try lia.
  - exact (proj1 H).
  - cbn [nth]; apply IH; [exact (proj2 H)|lia].
Qed.
Lemma smat_nth d : forall e A A' i, smat e d A A' -> (i < length e)%nat ->
  srow (nth i e false) d (nth i A []) (nth i A' []).
Proof.
  induction e as [|s e IH]; intros [|x t] [|y t'] [|i] H Hi; try contradiction; cbn [length] in Hi; try lia.
  - exact (proj1 H).
  - cbn [nth]; apply IH; [exact (proj2 H)|lia].
Qed.
Lemma smat_map_seq d (g g' : nat -> vec f64) : forall e k,
  (forall i, (i < length e)%nat -> srow (nth i e false) d (g (k + i)%nat) (g' (k + i)%nat)) ->
  smat e d (map g (seq k (length e))) (map g' (seq k (length e))).
Proof.
  induction e as [|c e IH]; intros k H; [exact I|]; cbn [length seq map]; split.
  - assert (Q := H O ltac:(cbn [length]; lia)); rewrite Nat.add_0_r in Q; exact Q.
  - apply IH; intros j Hj; replace (S k + j)%nat with (k + S j)%nat by lia; apply (H (S j)); cbn [length]; lia.
Qed.
Lemma srow_abs s : forall d r r', srow s d r r' -> map nabs r' = map nabs r.
Proof.
  induction d as [|c d IH]; intros [|x t] [|y t'] H; try contradiction; [reflexivity|].
  cbn [map]; rewrite (IH t t' (proj2 H)), (sg_abs _ _ _ (proj1 H)); reflexivity.
Qed.
Lemma srow_neg s : forall d r r', srow s d r r' -> srow s d (map nneg r) (map nneg r').
Proof.
  induction d as [|c d IH]; intros [|x t] [|y t'] H; try contradiction; [exact I|].
  split; [apply sg_neg, H|apply IH, H].
Qed.
Lemma srow_vdiv s c u v : sg (xorb s c) u v -> neqb u n0 = false ->
  forall d r r', srow s d r r' -> srow c d (vdiv r u) (vdiv r' v).
Proof.
  intros S NZ; induction d as [|b d IH]; intros [|x t] [|y t'] H; try contradiction; [exact I|].
  split; [|apply IH, H]; replace (xorb c b) with (xorb (xorb s b) (xorb s c)) by (destruct s, b, c; reflexivity).
  apply sg_div; [apply H|exact S|exact NZ].
Qed.
Lemma srow_axpy a a' e s t : sg e a a' -> xorb e s = t ->
  forall d x x' y y', srow s d x x' -> srow t d y y' -> srow t d (axpy a x y) (axpy a' x' y').
Proof.
  intros S E; induction d as [|c d IH]; intros [|x u] [|x' u'] [|y w] [|y' w'] H1 H2; try contradiction; [exact I|].
  split; [|apply (IH u u' w w'); [apply H1|apply H2]].
  apply sg_add; [|apply H2]; rewrite <- E, xorb_assoc; apply sg_mul; [exact S|apply H1].
Qed.

(** The scalar product of two rows whose signs agree up to [s]. *)
Lemma sg_dot s : forall d r r' u u', srow s d r r' -> srow false d u u' -> sg s (dot r u) (dot r' u').
Proof.
  assert (FL : forall d r r' u u' a a', srow s d r r' -> srow false d u u' -> sg s a a' ->
    sg s (fold_left nadd (map2 nmul r u) a) (fold_left nadd (map2 nmul r' u') a')).
  { induction d as [|c d IH]; intros [|x t] [|x' t'] [|y w] [|y' w'] a a' H1 H2 HA; try contradiction; [exact HA|].
    cbn [map2 fold_left]; apply IH; [apply H1|apply H2|]; apply sg_add; [exact HA|].
    replace s with (xorb (xorb s c) (xorb false c)) by (destruct s, c; reflexivity); apply sg_mul; [apply H1|apply H2]. }
  intros [|c d] [|x t] [|x' t'] [|y w] [|y' w'] H1 H2; try contradiction; [apply sg_zeros; reflexivity|].
  unfold dot; cbn [map2]; apply (FL d); [apply H1|apply H2|].
  replace s with (xorb (xorb s c) (xorb false c)) by (destruct s, c; reflexivity); apply sg_mul; [apply H1|apply H2].
Qed.

(** ** The elimination *)
Definition rrel (d t : list bool) (p p' : vec f64 * vec f64) : Prop :=
  exists s, srow s d (fst p) (fst p') /\ srow s t (snd p) (snd p').

Lemma icamax_abs : forall col col' : list f64, map nabs col' = map nabs col -> icamax col' = icamax col.
Proof.
  assert (FR : forall (col col' : list f64) i best k, map nabs col' = map nabs col ->
    icamax_from col' i best k = icamax_from col i best k).
  { induction col as [|x t IH]; intros [|x' t'] i best k H; try discriminate; [reflexivity|].
    cbn [map] in H; assert (E1 : nabs x' = nabs x) by congruence; assert (E2 : map nabs t' = map nabs t) by congruence.
    cbn [icamax_from]; rewrite E1, !(IH t' _ _ _ E2); reflexivity. }
  intros [|x t] [|x' t'] H; try discriminate; [reflexivity|].
  cbn [map] in H; assert (E1 : nabs x' = nabs x) by congruence; assert (E2 : map nabs t' = map nabs t) by congruence.
  cbn [icamax]; rewrite E1; apply FR, E2.
Qed.

Lemma Forall2_nth_error {T} (R : T -> T -> Prop) : forall l l' k, Forall2 R l l' ->
  match nth_error l k, nth_error l' k with Some x, Some y => R x y | None, None => True | _, _ => False end.
Proof.
  intros l l' k H; revert k; induction H as [|x y l l' H1 H2 IH]; intros [|k]; cbn [nth_error]; auto; apply IH.
Qed.
Lemma Forall2_firstn {T} (R : T -> T -> Prop) l l' k : Forall2 R l l' -> Forall2 R (firstn k l) (firstn k l').
Proof. intros H; revert k; induction H; intros [|k]; cbn [firstn]; auto. Qed.
Lemma Forall2_skipn {T} (R : T -> T -> Prop) l l' k : Forall2 R l l' -> Forall2 R (skipn k l) (skipn k l').
Proof. intros H; revert k; induction H; intros [|k]; cbn [skipn]; auto. Qed.
Lemma swap_rows_rel {T} (R : T -> T -> Prop) l l' k : Forall2 R l l' -> Forall2 R (swap_rows l k) (swap_rows l' k).
Proof.
  intros H; destruct k as [|k], H as [|x y l l' H1 H2]; cbn [swap_rows]; auto.
  assert (Q := Forall2_nth_error R l l' k H2).
  destruct (nth_error l k), (nth_error l' k); try contradiction; auto.
  constructor; [exact Q|]; apply Forall2_app; [apply Forall2_firstn, H2|]; constructor; [exact H1|].
  apply (Forall2_skipn R l l' (S k)), H2.
Qed.

(** The triangular systems. *)
Fixpoint urel (d t : list bool) (u u' : list (vec f64 * vec f64)) : Prop :=
  match d, u, u' with
  | [], [], [] => True
  | _ :: d', p :: v, p' :: v' => rrel d t p p' /\ neqb (hd n0 (fst p)) n0 = false /\ urel d' t v v'
  | _, _, _ => False
  end.

Lemma forward_rel t : forall d n rows rows', length d = n -> length rows = n ->
  Forall2 (rrel d t) rows rows' ->
  match lu_forward n rows, lu_forward n rows' with
  | Some u, Some u' => urel d t u u' | None, None => True | _, _ => False end.
Proof.
  induction d as [|c d IH]; intros n rows rows' Ld Lr H; destruct n as [|n]; try discriminate; [exact I|].
  cbn [lu_forward].
  assert (EI : icamax (map (fun rb => hd n0 (fst rb)) rows') = icamax (map (fun rb => hd n0 (fst rb)) rows)).
  { apply icamax_abs; clear Lr; induction H as [|p p' l l' H1 H2 IH2]; [reflexivity|]; cbn [map]; f_equal; [|exact IH2].
    destruct p as [[|x r] b], p' as [[|x' r'] b'], H1 as (s & Q & _); cbn [fst] in *; try contradiction.
    cbn [hd]; apply (sg_abs _ _ _ (proj1 Q)). }
  rewrite EI; set (k := icamax _); clearbody k.
  assert (HS := swap_rows_rel _ _ _ k H); assert (LS : length (swap_rows rows k) = S n).
  { rewrite <- Lr; clear; destruct k as [|k], rows as [|r l]; cbn [swap_rows]; try reflexivity.
    destruct (nth_error l k) as [y|] eqn:E; [|reflexivity]; cbn [length]; f_equal.
    assert (Hk : (k < length l)%nat) by (apply nth_error_Some; rewrite E; discriminate).
    rewrite app_length; cbn [length]; rewrite firstn_length, skipn_length; lia. }
  destruct HS as [|[piv b] [piv' b'] rest rest' (s & Q1 & Q2) HR]; [discriminate|].
  cbn [fst snd] in Q1, Q2; destruct piv as [|x piv], piv' as [|x' piv']; try contradiction; cbn [hd tl].
  destruct Q1 as (Q0 & Q1); rewrite (sg_nonzero _ _ _ Q0).
  destruct (neqb x n0) eqn:NZ; [exact I|].
  assert (SI : sg (xorb s c) (ndiv n1 x) (ndiv n1 x')).
  { replace (xorb s c) with (xorb false (xorb s c)) by (destruct s, c; reflexivity); apply sg_div; [apply sg_refl|exact Q0|exact NZ]. }
  set (step := fun rb : vec f64 * vec f64 => (axpy (nneg (nmul (hd n0 (fst rb)) (ndiv n1 x))) piv (tl (fst rb)),
    axpy (nneg (nmul (hd n0 (fst rb)) (ndiv n1 x))) b (snd rb))).
  set (step' := fun rb : vec f64 * vec f64 => (axpy (nneg (nmul (hd n0 (fst rb)) (ndiv n1 x'))) piv' (tl (fst rb)),
    axpy (nneg (nmul (hd n0 (fst rb)) (ndiv n1 x'))) b' (snd rb))).
  assert (HR2 : Forall2 (rrel d t) (map step rest) (map step' rest')).
  { clear LS; induction HR as [|p p' l l' (w & W1 & W2) H2 IH2]; [constructor|]; cbn [map]; constructor; [|exact IH2].
    exists w; destruct p as [[|y r] q], p' as [[|y' r'] q']; cbn [fst snd] in *; try contradiction.
    assert (SC : sg (xorb w s) (nneg (nmul y (ndiv n1 x))) (nneg (nmul y' (ndiv n1 x')))).
    { apply sg_neg; replace (xorb w s) with (xorb (xorb w c) (xorb s c)) by (destruct w, s, c; reflexivity).
      apply sg_mul; [apply W1|exact SI]. }
    assert (EX : xorb (xorb w s) s = w) by (destruct w, s; reflexivity).
    split; [apply (srow_axpy _ _ _ _ _ SC EX); [exact Q1|apply W1]|apply (srow_axpy _ _ _ _ _ SC EX); assumption]. }
  cbn [length] in LS; assert (LM : length (map step rest) = n) by (rewrite map_length; congruence).
  assert (Q := IH n _ _ ltac:(cbn [length] in Ld; congruence) LM HR2).
  change (match match lu_forward n (map step rest) with Some u => Some ((x :: piv, b) :: u) | None => None end,
      match lu_forward n (map step' rest') with Some u => Some ((x' :: piv', b') :: u) | None => None end with
    | Some u, Some u' => urel (c :: d) t u u' | None, None => True | _, _ => False end).
  destruct (lu_forward n (map step rest)), (lu_forward n (map step' rest')); try contradiction; [|exact I].
  split; [exists s; split; [split; assumption|exact Q2]|]; split; [exact NZ|exact Q].
Qed.

Lemma backward_rel t : forall d u u', urel d t u u' -> smat d t (lu_backward u) (lu_backward u').
Proof.
  induction d as [|c d IH]; intros [|[row b] u] [|[row' b'] u'] H; try contradiction; [exact I|].
  destruct H as ((s & H1 & H2) & NZ & HU); cbn [fst snd] in *.
  destruct row as [|x row], row' as [|x' row']; try contradiction; destruct H1 as (H0 & H1); cbn [hd] in NZ.
  cbn [lu_backward hd tl]; assert (HX := IH u u' HU); split; [|exact HX].
  apply (srow_vdiv s c x x' H0 NZ); clear H0 NZ HU IH.
  revert row row' H1 HX; generalize (lu_backward u) (lu_backward u').
  induction d as [|e d IH]; intros [|y ys] [|y' ys'] [|z row] [|z' row'] H1 HX; try contradiction; [exact H2|].
  cbn [combine fold_right fst snd].
  apply (srow_axpy _ _ (xorb s e) e s); [apply sg_neg, H1|destruct s, e; reflexivity|apply HX|].
  apply IH; [apply H1|apply HX].
Qed.

Lemma smat_identity e : forall n i s, length e = n -> nth i e false = s ->
  srow s e (map (fun j => if Nat.eqb i j then n1 else n0) (seq 0 n)) (map (fun j => if Nat.eqb i j then n1 else n0) (seq 0 n)).
Proof.
  intros n i s L <-; rewrite <- L; apply srow_map_seq; intros j Hj; cbn [Nat.add].
  destruct (Nat.eqb i j) eqn:E; [|apply sg_zeros; reflexivity].
  apply Nat.eqb_eq in E; subst j; rewrite xorb_nilpotent; apply sg_refl.
Qed.

Theorem inverse_signs : forall e d A A', length d = length e -> smat e d A A' ->
  match lu_inverse A, lu_inverse A' with
  | Some H, Some H' => smat d e H H' | None, None => True | _, _ => False end.
Proof.
  intros e d A A' LD HA; destruct (smat_length d e A A' HA) as (L1 & L2).
  unfold lu_inverse; rewrite L1, L2.
  assert (HR : Forall2 (rrel d e) (combine A (@identity f64 _ (length e))) (combine A' (@identity f64 _ (length e)))).
  { unfold identity; set (row := fun i : nat => map _ _).
    assert (HI : forall i, srow (nth i e false) e (row i) (row i)) by (intros i; apply smat_identity; reflexivity).
    clearbody row; clear L1 L2 LD.
    assert (GN : forall e' k B B', (forall i, (i < length e')%nat -> nth i e' false = nth (k + i) e false) -> smat e' d B B' ->
      Forall2 (rrel d e) (combine B (map row (seq k (length e')))) (combine B' (map row (seq k (length e'))))).
    { induction e' as [|s e' IH]; intros k [|r B] [|r' B'] HE HB; try contradiction; [constructor|].
      cbn [length seq map combine]; constructor.
      - exists s; split; [apply HB|]; cbn [snd].
        assert (Q := HE O ltac:(cbn [length]; lia)); rewrite Nat.add_0_r in Q; cbn [nth] in Q; rewrite Q; apply HI.
      - apply IH; [|apply HB]; intros i Hi; replace (S k + i)%nat with (k + S i)%nat by lia; apply (HE (S i)); cbn [length]; lia. }
    apply (GN e O A A'); [reflexivity|exact HA]. }
  assert (LC : length (combine A (@identity f64 _ (length e))) = length e).
  { rewrite combine_length; unfold identity; rewrite map_length, seq_length, L1; apply Nat.min_id. }
  assert (Q := forward_rel e d (length e) _ _ LD LC HR).
  revert Q; generalize (lu_forward (length e) (combine A (@identity f64 _ (length e))))
    (lu_forward (length e) (combine A' (@identity f64 _ (length e)))).
  intros [u|] [u'|] Q; try contradiction; [|exact I].
  apply backward_rel, Q.
Qed.
