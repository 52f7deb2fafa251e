(** The LU inverse on exact reals is a two-sided inverse, and it fails exactly
    on the matrices with a non-trivial kernel. *)
From Coq Require Import Reals Lra.
From Verif Require Import Base Num Linalg RNum.
Open Scope R_scope.

(** One column of the right-hand sides. *)
Definition sat (c : nat) (rows : list (vec R * vec R)) (x : vec R) : Prop :=
  forall rb, In rb rows -> dot (fst rb) x = vent (snd rb) c.

Definition shaped (n m : nat) (rows : list (vec R * vec R)) : Prop :=
  length rows = n /\ forall rb, In rb rows -> length (fst rb) = n /\ length (snd rb) = m.

(** *** Swapping rows *)
Lemma swap_rows_in {A} (rows : list A) k x : In x (swap_rows rows k) <-> In x rows.
Proof.
  unfold swap_rows; destruct k as [|k]; [tauto|].
  destruct rows as [|r0 rest]; [tauto|].
  destruct (nth_error rest k) as [rk|] eqn:E; [|tauto].
  apply nth_error_split in E; destruct E as (l1 & l2 & -> & L).
  assert (F1 : firstn k (l1 ++ rk :: l2) = l1).
  { rewrite firstn_app, <- L, firstn_all, Nat.sub_diag; cbn; apply app_nil_r. }
  assert (F2 : skipn (S k) (l1 ++ rk :: l2) = l2).
  { rewrite skipn_app, <- L, skipn_all2 by lia.
    replace (S (length l1) - length l1)%nat with 1%nat by lia; reflexivity. }
  rewrite F1, F2; cbn [In]; rewrite !in_app_iff; cbn [In]; tauto.
Qed.

Lemma swap_rows_len {A} (rows : list A) k : length (swap_rows rows k) = length rows.
Proof.
  unfold swap_rows; destruct k as [|k]; [reflexivity|].
  destruct rows as [|r0 rest]; [reflexivity|].
  destruct (nth_error rest k) eqn:E; [|reflexivity].
  cbn [length]; f_equal; rewrite app_length; cbn [length].
  assert (H : (k < length rest)%nat) by (apply nth_error_Some; congruence).
  rewrite firstn_length, skipn_length; lia.
Qed.

Lemma swap_rows_map {A B} (f : A -> B) rows k :
  map f (swap_rows rows k) = swap_rows (map f rows) k.
Proof.
  unfold swap_rows; destruct k as [|k]; [reflexivity|].
  destruct rows as [|r0 rest]; [reflexivity|]; cbn [map].
  rewrite nth_error_map; destruct (nth_error rest k) eqn:E; [|reflexivity].
  cbn [option_map map]; rewrite map_app, firstn_map; cbn [map]; rewrite skipn_map; reflexivity.
Qed.

Lemma swap_rows_hd {A} (rows : list A) k d : (k < length rows)%nat ->
  hd d (swap_rows rows k) = nth k rows d.
Proof.
  intros H; unfold swap_rows; destruct k as [|k].
  - destruct rows; reflexivity.
  - destruct rows as [|r0 rest]; [cbn in H; lia|].
    destruct (nth_error rest k) eqn:E.
    + cbn [hd nth]; symmetry; apply nth_error_nth, E.
    + apply nth_error_None in E; cbn [length] in H; lia.
Qed.

(** *** The pivot is an entry of largest absolute value *)
Lemma icamax_from_spec : forall col i best ibest (full : list R),
  (ibest < i)%nat -> full = firstn i full ++ col -> (i <= length full)%nat ->
  Rabs (nth ibest full 0) = best ->
  (forall j, (j < i)%nat -> Rabs (nth j full 0) <= best) ->
  let k := icamax_from col i best ibest in
  (k < length full)%nat /\ forall j, (j < length full)%nat -> Rabs (nth j full 0) <= Rabs (nth k full 0).
Proof.
  induction col as [|x col IH]; intros i best ibest full L E Li B M; cbn [icamax_from].
  - rewrite app_nil_r in E.
    assert (Lf : length full = i).
    { apply (f_equal (@length R)) in E; rewrite firstn_length in E; lia. }
    split; [lia|]; intros j Hj; rewrite B; apply M; lia.
  - assert (Lt : (i < length full)%nat).
    { apply (f_equal (@length R)) in E; rewrite app_length, firstn_length in E; cbn in E; lia. }
    assert (X : nth i full 0 = x).
    { rewrite E, app_nth2; rewrite firstn_length, Nat.min_l by lia; [|lia].
      rewrite Nat.sub_diag; reflexivity. }
    assert (E' : full = firstn (S i) full ++ col).
    { rewrite <- (firstn_skipn i full) at 1.
      assert (SK : skipn i full = x :: col).
      { apply (app_inv_head (firstn i full)); rewrite firstn_skipn; exact E. }
      rewrite SK.
      assert (F1 : firstn (S i) full = firstn i full ++ [x]).
      { rewrite <- (firstn_skipn i full) at 1; rewrite SK, firstn_app, firstn_length, Nat.min_l by lia.
        rewrite firstn_all2 by (rewrite firstn_length; lia).
        replace (S i - i)%nat with 1%nat by lia; reflexivity. }
      rewrite F1, <- app_assoc; reflexivity. }
    change (ngtb (nabs x) best) with (Rltb best (Rabs x)).
    destruct (Rltb best (Rabs x)) eqn:C.
    + apply Rltb_true in C.
      apply IH; try lia; try assumption.
      * rewrite X; reflexivity.
      * intros j Hj; change (nabs x) with (Rabs x).
        destruct (Nat.eq_dec j i) as [->|N]; [rewrite X; lra|].
        pose proof (M j ltac:(lia)); lra.
    + apply Rltb_false in C.
      apply IH; try lia; try assumption.
      intros j Hj; destruct (Nat.eq_dec j i) as [->|N]; [rewrite X; lra|].
      apply M; lia.
Qed.

Lemma icamax_spec (col : list R) : col <> [] ->
  (icamax col < length col)%nat /\
  forall j, (j < length col)%nat -> Rabs (nth j col 0) <= Rabs (nth (icamax col) col 0).
Proof.
  destruct col as [|x col]; [congruence|]; intros _; unfold icamax.
  apply icamax_from_spec; try (cbn; lia).
  - reflexivity.
  - reflexivity.
  - intros j Hj; replace j with 0%nat by lia; change (nabs x) with (Rabs x); cbn; lra.
Qed.

(** *** axpy *)
Lemma axpy_len a (x y : vec R) : length x = length y -> length (axpy a x y) = length x.
Proof. apply map2_length. Qed.
Lemma axpy_ent a (x y : vec R) i : length x = length y -> (i < length x)%nat ->
  vent (axpy a x y) i = a * vent x i + vent y i.
Proof. intros L H; unfold axpy, vent; rewrite (nth_map2_in _ 0 0 0) by assumption; reflexivity. Qed.
Lemma axpy_dot a : forall (x y v : vec R), length x = length y -> length v = length x ->
  dot (axpy a x y) v = a * dot x v + dot y v.
Proof.
  induction x as [|x0 x IH]; intros [|y0 y] [|v0 v] L1 L2; try discriminate.
  - rewrite !dot_nil; cbn; lra.
  - change (axpy a (x0 :: x) (y0 :: y)) with ((a * x0 + y0) :: axpy a x y).
    rewrite !dot_cons, IH by (cbn [length] in *; lia); lra.
Qed.

(** *** One elimination step *)
Definition lu_step (piv b : vec R) (rb : vec R * vec R) : vec R * vec R :=
  let coeff := hd 0 (fst rb) * (1 / hd 0 piv) in
  (axpy (- coeff) (tl piv) (tl (fst rb)), axpy (- coeff) b (snd rb)).

Lemma step_sat n m c d p' b rb x0 x : d <> 0 ->
  length p' = n -> length b = m -> length (fst rb) = S n -> length (snd rb) = m ->
  length x = n -> (c < m)%nat ->
  dot (d :: p') (x0 :: x) = vent b c ->
  (dot (fst (lu_step (d :: p') b rb)) x = vent (snd (lu_step (d :: p') b rb)) c <->
   dot (fst rb) (x0 :: x) = vent (snd rb) c).
Proof.
  intros D Lp Lb L1 L2 Lx Hc P; destruct rb as [a b']; cbn [fst snd] in *.
  destruct a as [|a0 a]; [discriminate|]; cbn [length] in L1; injection L1 as L1.
  unfold lu_step; cbn [fst snd hd tl].
  rewrite axpy_dot by congruence; rewrite axpy_ent by congruence.
  rewrite dot_cons in *; rewrite <- P.
  assert (E : a0 * (1 / d) * (d * x0) = a0 * x0) by (field; exact D).
  split; intros H; nra.
Qed.

(** The elimination as written in the model. *)
Lemma lu_forward_S n (rows : list (vec R * vec R)) :
  lu_forward (S n) rows =
  match swap_rows rows (icamax (map (fun rb => hd 0 (fst rb)) rows)) with
  | [] => Some []
  | (piv, b) :: rest =>
      if Reqb (hd 0 piv) 0 then None
      else match lu_forward n (map (lu_step piv b) rest) with
           | Some u => Some ((piv, b) :: u)
           | None => None
           end
  end.
Proof. reflexivity. Qed.

Lemma lu_backward_cons row b u : lu_backward ((row, b) :: u) =
  vdiv (fold_right (fun ux acc => axpy (- fst ux) (snd ux) acc) b
         (combine (tl row) (lu_backward u))) (hd 0 row) :: lu_backward u.
Proof. reflexivity. Qed.

Definition colc (c : nat) (X : mat R) : vec R := map (fun r => nth c r 0) X.

Lemma back_acc m c : forall (t : vec R) (X : mat R) (b : vec R),
  length b = m -> (forall r, In r X -> length r = m) -> length X = length t -> (c < m)%nat ->
  let acc := fold_right (fun ux acc => axpy (- fst ux) (snd ux) acc) b (combine t X) in
  length acc = m /\ vent acc c = vent b c - dot t (colc c X).
Proof.
  induction t as [|t0 t IH]; intros [|r X] b Lb LX L Hc; try discriminate; cbn zeta.
  - cbn [combine fold_right]; rewrite dot_nil; split; [exact Lb|lra].
  - cbn [combine fold_right fst snd].
    destruct (IH X b Lb (fun r' H => LX r' (or_intror H)) ltac:(cbn in L; lia) Hc) as [A1 A2].
    cbn zeta in A1, A2.
    pose proof (LX r (or_introl eq_refl)) as Lr.
    split; [rewrite axpy_len; congruence|].
    rewrite axpy_ent by congruence; rewrite A2; unfold colc; cbn [map]; rewrite dot_cons.
    change (nth c r 0) with (vent r c); lra.
Qed.

(** The state after the elimination has the shape expected by the back
    substitution: rows of decreasing length. *)
Fixpoint tri (n m : nat) (u : list (vec R * vec R)) : Prop :=
  match n, u with
  | O, [] => True
  | S n', (row, b) :: u' => length row = S n' /\ length b = m /\ hd 0 row <> 0 /\ tri n' m u'
  | _, _ => False
  end.

Lemma lu_step_shape n m piv b rest : length piv = S n -> length b = m ->
  (forall rb, In rb rest -> length (fst rb) = S n /\ length (snd rb) = m) -> length rest = n ->
  shaped n m (map (lu_step piv b) rest).
Proof.
  intros Lp Lb H L; split; [rewrite map_length; exact L|].
  intros rb I; apply in_map_iff in I; destruct I as (rb' & <- & I); destruct (H _ I) as [H1 H2].
  destruct piv as [|d p']; [discriminate|]; destruct rb' as [[|a0 a] b']; [discriminate|].
  cbn [length fst snd] in *; unfold lu_step; cbn [fst snd tl hd].
  split; rewrite axpy_len; lia.
Qed.

Lemma lu_forward_cons n m rows : shaped (S n) m rows ->
  exists piv b rest, swap_rows rows (icamax (map (fun rb => hd 0 (fst rb)) rows)) = (piv, b) :: rest /\
  length piv = S n /\ length b = m /\ length rest = n /\
  (forall rb, In rb rest -> length (fst rb) = S n /\ length (snd rb) = m) /\
  (forall rb, In rb rows <-> rb = (piv, b) \/ In rb rest).
Proof.
  intros [L H]; set (k := icamax _).
  pose proof (swap_rows_len rows k) as SL; pose proof (swap_rows_in rows k) as SI.
  destruct (swap_rows rows k) as [|[piv b] rest]; [cbn in SL; lia|].
  exists piv, b, rest; split; [reflexivity|].
  assert (I0 : In (piv, b) rows) by (apply SI; left; reflexivity).
  destruct (H _ I0) as [H1 H2]; cbn [fst snd] in *.
  split; [exact H1|]; split; [exact H2|]; split; [cbn [length] in SL; lia|].
  split.
  - intros rb I; apply H, SI; right; exact I.
  - intros rb; rewrite <- SI; cbn [In]; split; intros [A|A]; auto.
Qed.

Lemma lu_forward_tri : forall n m rows u, shaped n m rows ->
  lu_forward n rows = Some u -> tri n m u.
Proof.
  induction n as [|n IH]; intros m rows u S E.
  - injection E as <-; exact I.
  - rewrite lu_forward_S in E.
    destruct (lu_forward_cons n m rows S) as (piv & b & rest & ES & L1 & L2 & L3 & L4 & _).
    rewrite ES in E; destruct (Reqb (hd 0 piv) 0) eqn:D; [discriminate|].
    apply Reqb_false in D.
    destruct (lu_forward n (map (lu_step piv b) rest)) as [u'|] eqn:EF; [|discriminate].
    injection E as <-; cbn [tri].
    split; [exact L1|]; split; [exact L2|]; split; [exact D|].
    apply (IH m _ u' (lu_step_shape n m piv b rest L1 L2 L4 L3) EF).
Qed.

Lemma lu_backward_shape : forall n m u, tri n m u ->
  length (lu_backward u) = n /\ forall r, In r (lu_backward u) -> length r = m.
Proof.
  induction n as [|n IH]; intros m [|[row b] u] T; cbn [tri] in T; try tauto.
  - split; [reflexivity|intros r []].
  - destruct T as (L1 & L2 & D & T); destruct (IH m u T) as [B1 B2].
    rewrite lu_backward_cons; cbn [length In]; split; [lia|].
    intros r [<-|Ir]; [|apply B2, Ir].
    destruct row as [|d t]; [discriminate|]; cbn [tl hd].
    unfold vdiv; rewrite map_length.
    destruct m as [|m].
    + (* no column *)
      assert (G : forall (t : vec R) X (b : vec R), length b = 0%nat ->
        length (fold_right (fun ux acc => axpy (- fst ux) (snd ux) acc) b (combine t X)) = 0%nat).
      { induction t0 as [|t0 t' IHt]; intros [|r X] b0 Lb; cbn [combine fold_right]; auto.
        unfold axpy; specialize (IHt X b0 Lb).
        destruct (fold_right _ b0 (combine t' X)); [|discriminate].
        cbn [fst snd]; destruct r; reflexivity. }
      apply G, L2.
    + apply (back_acc (S m) 0 t (lu_backward u) b L2 B2); [cbn in L1; lia|lia].
Qed.

(** The systems before and after the elimination have the same solutions, and
    the back substitution computes the only one. *)
Theorem lu_solves : forall n m rows u, shaped n m rows -> lu_forward n rows = Some u ->
  forall c x, (c < m)%nat -> length x = n ->
  (sat c rows x <-> x = colc c (lu_backward u)).
Proof.
  induction n as [|n IH]; intros m rows u S E c x Hc Lx.
  - injection E as <-; destruct x; [|discriminate]; split; [reflexivity|].
    intros _ rb Irb; destruct S as [S _]; destruct rows; [destruct Irb|discriminate].
  - pose proof (lu_forward_tri _ _ _ _ S E) as T.
    rewrite lu_forward_S in E.
    destruct (lu_forward_cons n m rows S) as (piv & b & rest & ES & L1 & L2 & L3 & L4 & L5).
    rewrite ES in E; destruct (Reqb (hd 0 piv) 0) eqn:D; [discriminate|].
    apply Reqb_false in D.
    destruct (lu_forward n (map (lu_step piv b) rest)) as [u'|] eqn:EF; [|discriminate].
    injection E as <-; cbn [tri] in T; destruct T as (_ & _ & _ & T).
    destruct x as [|x0 x]; [discriminate|]; cbn [length] in Lx; injection Lx as Lx.
    destruct piv as [|d p']; [discriminate|]; cbn [hd] in D; cbn [length] in L1; injection L1 as L1.
    pose proof (lu_step_shape n m (d :: p') b rest ltac:(cbn; lia) L2 L4 L3) as S'.
    specialize (IH m _ u' S' EF c x Hc Lx).
    destruct (lu_backward_shape n m u' T) as [B1 B2].
    destruct (back_acc m c p' (lu_backward u') b L2 B2 ltac:(lia) Hc) as [A1 A2]; cbn zeta in A1, A2.
    rewrite lu_backward_cons; unfold colc at 1; cbn [map tl hd].
    fold (colc c (lu_backward u')).
    set (acc := fold_right _ b _) in *.
    assert (V : nth c (vdiv acc d) 0 = vent acc c / d).
    { apply (ent_div m acc d c A1 Hc). }
    rewrite V, A2.
    assert (Q : sat c rows (x0 :: x) <->
              (dot (d :: p') (x0 :: x) = vent b c /\ sat c (map (lu_step (d :: p') b) rest) x)).
    { split.
      - intros H; assert (P : dot (d :: p') (x0 :: x) = vent b c).
        { apply (H (d :: p', b)), L5; left; reflexivity. }
        split; [exact P|]; intros rb Irb; apply in_map_iff in Irb; destruct Irb as (rb' & <- & Irb).
        destruct (L4 _ Irb) as [K1 K2].
        apply (step_sat n m c d p' b rb' x0 x D L1 L2 K1 K2 Lx Hc P).
        apply H, L5; right; exact Irb.
      - intros [P H] rb Irb; apply L5 in Irb; destruct Irb as [->|Irb]; [exact P|].
        destruct (L4 _ Irb) as [K1 K2].
        apply (step_sat n m c d p' b rb x0 x D L1 L2 K1 K2 Lx Hc P).
        apply H, in_map, Irb. }
    rewrite Q, IH, dot_cons.
    split.
    + intros [P ->]; f_equal; rewrite <- P; field; exact D.
    + intros H; injection H as -> ->; split; [field; exact D|reflexivity].
Qed.

(** Failure: a non-zero vector in the kernel. *)
Theorem lu_fails : forall n m rows, shaped n m rows -> lu_forward n rows = None ->
  exists x, length x = n /\ (exists i, (i < n)%nat /\ vent x i <> 0) /\
  forall rb, In rb rows -> dot (fst rb) x = 0.
Proof.
  induction n as [|n IH]; intros m rows S E; [discriminate|].
  rewrite lu_forward_S in E.
  destruct (lu_forward_cons n m rows S) as (piv & b & rest & ES & L1 & L2 & L3 & L4 & L5).
  rewrite ES in E.
  assert (Z0 : forall (a : vec R) k, dot a (repeat 0 k) = 0).
  { induction a as [|a0 a IHa]; intros [|k]; cbn [repeat]; rewrite ?dot_nil; auto.
    rewrite dot_cons, IHa; lra. }
  destruct (Reqb (hd 0 piv) 0) eqn:D.
  - apply Reqb_true in D.
    exists (1 :: repeat 0 n); split; [cbn; rewrite repeat_length; reflexivity|].
    split; [exists 0%nat; split; [lia|cbn; lra]|].
    intros rb Irb.
    set (col := map (fun rb => hd 0 (fst rb)) rows) in *.
    assert (NE : col <> []).
    { unfold col; destruct rows; [destruct Irb|discriminate]. }
    destruct (icamax_spec col NE) as [K1 K2].
    assert (Lc : length col = length rows) by apply map_length.
    assert (P0 : nth (icamax col) col 0 = 0).
    { pose proof (swap_rows_hd rows (icamax col) ([], []) ltac:(lia)) as H.
      rewrite ES in H; cbn [hd] in H.
      assert (K1' : (icamax col < length rows)%nat) by (rewrite Lc in K1; exact K1).
      transitivity (hd 0 (fst (nth (icamax col) rows ([], [])))); [|rewrite <- H; exact D].
      apply (nth_map_in (fun rb : vec R * vec R => hd 0 (fst rb)) rows (icamax col) 0 ([], [])), K1'. }
    assert (H0 : hd 0 (fst rb) = 0).
    { destruct (In_nth rows rb ([], []) Irb) as (j & Hj & <-).
      specialize (K2 j ltac:(rewrite Lc; exact Hj)); rewrite P0, Rabs_R0 in K2.
      unfold col in K2; rewrite (nth_map_in _ _ _ _ ([], [])) in K2 by exact Hj.
      pose proof (Rabs_pos (hd 0 (fst (nth j rows ([], []))))).
      destruct (Req_dec (hd 0 (fst (nth j rows ([], [])))) 0) as [Q|Q]; [exact Q|].
      apply Rabs_no_R0 in Q; exfalso; apply Q; apply Rle_antisym; assumption. }
    destruct (fst rb) as [|a0 a]; [destruct S as [_ S]; apply dot_nil|].
    cbn [hd] in H0; rewrite dot_cons, Z0, H0; lra.
  - apply Reqb_false in D.
    destruct (lu_forward n (map (lu_step piv b) rest)) as [u'|] eqn:EF; [discriminate|].
    pose proof (lu_step_shape n m piv b rest L1 L2 L4 L3) as S'.
    destruct (IH m _ S' EF) as (x & Lx & (i & Hi & Nx) & K).
    destruct piv as [|d p']; [discriminate|]; cbn [hd] in D; cbn [length] in L1; injection L1 as L1.
    exists (- dot p' x / d :: x); split; [cbn; lia|].
    split; [exists (Datatypes.S i); split; [lia|exact Nx]|].
    assert (P : dot (d :: p') (- dot p' x / d :: x) = 0) by (rewrite dot_cons; field; exact D).
    intros rb Irb; apply L5 in Irb; destruct Irb as [->|Irb]; [exact P|].
    destruct (L4 _ Irb) as [K1 K2].
    specialize (K _ (in_map _ _ _ Irb)).
    destruct rb as [[|a0 a] b']; [discriminate|]; cbn [fst snd] in *.
    unfold lu_step in K; cbn [fst snd hd tl] in K; cbn [length] in K1.
    rewrite axpy_dot in K by lia.
    rewrite dot_cons in *.
    assert (E1 : a0 * (1 / d) * dot p' x = - (a0 * (- dot p' x / d))) by (field; exact D).
    lra.
Qed.

(** Success does not depend on the right-hand sides. *)
Lemma lu_forward_fst : forall n rows rows',
  map fst rows = map fst rows' -> 
  (lu_forward n rows = None <-> lu_forward n rows' = None).
Proof.
  induction n as [|n IH]; intros rows rows' E; [split; discriminate|].
  rewrite !lu_forward_S.
  assert (EK : map (fun rb => hd 0 (fst rb)) rows = map (fun rb => hd 0 (fst rb)) rows').
  { pose proof (f_equal (map (hd 0)) E) as EK; rewrite !map_map in EK; exact EK. }
  rewrite EK; set (k := icamax _).
  assert (ES : map fst (swap_rows rows k) = map fst (swap_rows rows' k)).
  { rewrite !swap_rows_map, E; reflexivity. }
  destruct (swap_rows rows k) as [|[p b] r], (swap_rows rows' k) as [|[p' b'] r'];
    try discriminate; [tauto|].
  cbn [map fst] in ES; injection ES as -> ES.
  destruct (Reqb (hd 0 p') 0); [tauto|].
  assert (EM : map fst (map (lu_step p' b) r) = map fst (map (lu_step p' b') r')).
  { rewrite !map_map; cbn [lu_step fst].
    set (g := fun a : vec R => axpy (- (hd 0 a * (1 / hd 0 p'))) (tl p') (tl a)).
    change (map (fun x : vec R * vec R => g (fst x)) r = map (fun x : vec R * vec R => g (fst x)) r').
    pose proof (f_equal (map g) ES) as EK'; rewrite !map_map in EK'; exact EK'. }
  specialize (IH _ _ EM).
  destruct (lu_forward n (map (lu_step p' b) r)), (lu_forward n (map (lu_step p' b') r'));
    split; intros H; try discriminate; try reflexivity; exfalso;
    try (discriminate (proj1 IH eq_refl)); try (discriminate (proj2 IH eq_refl)).
Qed.

(** *** Matrices *)
Lemma combine_shaped n (A B : mat R) : is_mat n A -> is_mat n B -> shaped n n (combine A B).
Proof.
  intros [HA RA] [HB RB]; split; [rewrite combine_length, HA, HB; apply Nat.min_id|].
  intros [a b] H; cbn [fst snd].
  split.
  - apply in_combine_l in H; destruct (In_nth A a [] H) as (i & Hi & <-); apply RA; lia.
  - apply in_combine_r in H; destruct (In_nth B b [] H) as (i & Hi & <-); apply RB; lia.
Qed.

Lemma sat_combine n c (A B : mat R) x : is_mat n A -> is_mat n B -> length x = n ->
  (sat c (combine A B) x <-> forall i, (i < n)%nat -> vent (mat_vec A x) i = ment B i c).
Proof.
  intros [HA RA] [HB RB] Lx; split.
  - intros H i Hi.
    unfold vent, mat_vec; rewrite (nth_map_in _ _ _ _ []) by lia.
    apply (H (nth i A [], nth i B [])).
    rewrite <- combine_nth by congruence; apply nth_In; rewrite combine_length; lia.
  - intros H [a b] I.
    destruct (In_nth _ _ ([], []) I) as (i & Hi & E).
    rewrite combine_length in Hi; rewrite combine_nth in E by congruence; injection E as <- <-.
    specialize (H i ltac:(lia)); unfold vent, mat_vec in H.
    rewrite (nth_map_in _ _ _ _ []) in H by lia; exact H.
Qed.

Lemma colc_len c (X : mat R) : length (colc c X) = length X.
Proof. apply map_length. Qed.
Lemma colc_ent c (X : mat R) n i : length X = n -> (i < n)%nat -> vent (colc c X) i = ment X i c.
Proof. intros L H; unfold vent, colc; rewrite (nth_map_in _ _ _ _ []) by lia; reflexivity. Qed.

(** [A X = B], for square matrices, is solved by exactly one [X]. *)
Lemma lu_matrix n (A B : mat R) u : is_mat n A -> is_mat n B ->
  lu_forward n (combine A B) = Some u ->
  is_mat n (lu_backward u) /\
  (forall i j, (i < n)%nat -> (j < n)%nat -> ment (mat_mul A (lu_backward u)) i j = ment B i j) /\
  (forall X, is_mat n X ->
     (forall i j, (i < n)%nat -> (j < n)%nat -> ment (mat_mul A X) i j = ment B i j) ->
     X = lu_backward u).
Proof.
  intros MA MB E.
  pose proof (combine_shaped n A B MA MB) as S.
  pose proof (lu_forward_tri _ _ _ _ S E) as T.
  destruct (lu_backward_shape n n u T) as [B1 B2].
  assert (MX : is_mat n (lu_backward u)).
  { split; [exact B1|]; intros i Hi; apply B2, nth_In; lia. }
  assert (MV : forall X, is_mat n X -> forall i j, (i < n)%nat -> (j < n)%nat ->
           ment (mat_mul A X) i j = vent (mat_vec A (colc j X)) i).
  { intros X [L R'] i j Hi Hj; rewrite (ent_mul n) by (assumption || split; assumption).
    rewrite (ent_mat_vec n) by (assumption || rewrite colc_len; assumption).
    apply rsum_ext; intros k Hk; rewrite (colc_ent j X n) by assumption; reflexivity. }
  split; [exact MX|]; split.
  - intros i j Hi Hj; rewrite (MV _ MX) by assumption.
    apply (sat_combine n j A B); try assumption; [rewrite colc_len; exact B1|].
    apply (lu_solves n n _ u S E j); try assumption; [rewrite colc_len; exact B1|reflexivity].
  - intros X MX' H.
    assert (C : forall j, (j < n)%nat -> colc j X = colc j (lu_backward u)).
    { intros j Hj; apply (lu_solves n n _ u S E j); try assumption.
      - rewrite colc_len; apply MX'.
      - apply (sat_combine n j A B); try assumption; [rewrite colc_len; apply MX'|].
        intros i Hi; rewrite <- (MV _ MX') by assumption; apply H; assumption. }
    apply (mat_ext _ _ n MX' MX); intros i j Hi Hj.
    rewrite <- (colc_ent j X n i (proj1 MX') Hi), (C j Hj).
    exact (colc_ent j _ n i B1 Hi).
Qed.

Lemma mul_assoc n (A B C : mat R) : is_mat n A -> is_mat n B -> is_mat n C ->
  mat_mul (mat_mul A B) C = mat_mul A (mat_mul B C).
Proof.
  intros MA MB MC; pose proof (is_mat_mul n A B MA MB) as MAB;
    pose proof (is_mat_mul n B C MB MC) as MBC.
  apply (mat_ext _ _ n); [apply is_mat_mul; assumption|apply is_mat_mul; assumption|].
  intros i j Hi Hj; rewrite !(ent_mul n) by assumption.
  transitivity (rsum n (fun k => rsum n (fun l => ment A i l * ment B l k * ment C k j))).
  - apply rsum_ext; intros k Hk; rewrite (ent_mul n) by assumption; rewrite <- rsum_scal_r; reflexivity.
  - rewrite rsum_swap; apply rsum_ext; intros l Hl; rewrite (ent_mul n) by assumption.
    rewrite <- rsum_scal_l; apply rsum_ext; intros k Hk; lra.
Qed.

Lemma mul_id_r n (A : mat R) : is_mat n A -> mat_mul A (identity n) = A.
Proof.
  intros MA; pose proof (is_mat_identity n) as MI.
  apply (mat_ext _ _ n); [apply is_mat_mul; assumption|assumption|].
  intros i j Hi Hj; rewrite (ent_mul n) by assumption.
  rewrite (rsum_ext n _ (fun k => ment A i k * (if Nat.eqb k j then 1 else 0))).
  - apply (rsum_delta_r n j (fun k => ment A i k)), Hj.
  - intros k Hk; rewrite (ent_identity n) by assumption; reflexivity.
Qed.
Lemma mul_id_l n (A : mat R) : is_mat n A -> mat_mul (identity n) A = A.
Proof.
  intros MA; pose proof (is_mat_identity n) as MI.
  apply (mat_ext _ _ n); [apply is_mat_mul; assumption|assumption|].
  intros i j Hi Hj; rewrite (ent_mul n) by assumption.
  rewrite (rsum_ext n _ (fun k => (if Nat.eqb k i then 1 else 0) * ment A k j)).
  - apply (rsum_delta n i (fun k => ment A k j)), Hi.
  - intros k Hk; rewrite (ent_identity n) by assumption; rewrite Nat.eqb_sym; reflexivity.
Qed.

Theorem lu_inverse_exact n (A H : mat R) : is_mat n A -> lu_inverse A = Some H ->
  is_mat n H /\ mat_mul A H = identity n /\ mat_mul H A = identity n.
Proof.
  intros MA E; pose proof (is_mat_identity n) as MI.
  unfold lu_inverse in E; rewrite (proj1 MA) in E.
  destruct (lu_forward n (combine A (identity n))) as [u|] eqn:EF; [|discriminate].
  injection E as <-.
  destruct (lu_matrix n A (identity n) u MA MI EF) as (MH & R1 & _).
  set (H := lu_backward u) in *.
  assert (AH : mat_mul A H = identity n).
  { apply (mat_ext _ _ n); [apply is_mat_mul; assumption|assumption|exact R1]. }
  split; [exact MH|]; split; [exact AH|].
  destruct (lu_forward n (combine A A)) as [u'|] eqn:EG.
  - destruct (lu_matrix n A A u' MA MA EG) as (_ & _ & U).
    pose proof (is_mat_mul n H A MH MA) as MHA.
    rewrite (U (mat_mul H A) MHA).
    + symmetry; apply U; [exact MI|]; intros i j _ _; rewrite (mul_id_r n A MA); reflexivity.
    + intros i j _ _; rewrite <- (mul_assoc n A H A) by assumption.
      rewrite AH, (mul_id_l n A MA); reflexivity.
  - exfalso; apply (lu_forward_fst n (combine A (identity n)) (combine A A)) in EG; [congruence|].
    assert (CF : forall (X Y : mat R), length X = length Y -> map fst (combine X Y) = X).
    { induction X as [|x X IHX]; intros [|y Y] L; try discriminate; cbn [combine map fst]; [reflexivity|].
      f_equal; apply IHX; cbn in L; lia. }
    rewrite !CF; [reflexivity|reflexivity|exact (eq_trans (proj1 MA) (eq_sym (proj1 MI)))].
Qed.

(** A left inverse is unique, and equal to the LU inverse. *)
Lemma inverse_unique n (A H H' : mat R) : is_mat n A -> is_mat n H -> is_mat n H' ->
  mat_mul H A = identity n -> mat_mul A H' = identity n -> H = H'.
Proof.
  intros MA MH MH' E1 E2.
  rewrite <- (mul_id_r n H MH), <- E2, <- (mul_assoc n H A H') by assumption.
  rewrite E1; apply mul_id_l, MH'.
Qed.

Theorem lu_inverse_fails n (A : mat R) : is_mat n A -> lu_inverse A = None ->
  exists x, length x = n /\ (exists i, (i < n)%nat /\ vent x i <> 0) /\
  forall i, (i < n)%nat -> vent (mat_vec A x) i = 0.
Proof.
  intros MA E; pose proof (is_mat_identity n) as MI.
  unfold lu_inverse in E; rewrite (proj1 MA) in E.
  destruct (lu_forward n (combine A (identity n))) as [u|] eqn:EF; [discriminate|].
  destruct (lu_fails n n _ (combine_shaped n A (identity n) MA MI) EF) as (x & Lx & Nz & K).
  exists x; split; [exact Lx|]; split; [exact Nz|].
  intros i Hi; unfold vent, mat_vec; rewrite (nth_map_in _ _ _ _ []) by (rewrite (proj1 MA); exact Hi).
  apply (K (nth i A [], nth i (identity n) [])).
  assert (LL : length A = length (identity n : mat R)) by exact (eq_trans (proj1 MA) (eq_sym (proj1 MI))).
  rewrite <- combine_nth by exact LL; apply nth_In; rewrite combine_length, <- LL, Nat.min_id.
  rewrite (proj1 MA); exact Hi.
Qed.
