(** C104: the update formulas entry by entry, with the order of their operations. *)
From Coq Require Import List Arith Lia Bool ZArith.
From Verif Require Import Base Num F64 Linalg Residuals Iteratives UserModel Jacobian Solver SafeFacts Samples.
Import ListNotations.

Section Entries.
Context {F : Type} {NF : Num F} {IF : Inverter F}.

(** ** The formulas *)
(** A sum from left to right. *)
Definition series (n : nat) (g : nat -> F) : F :=
  match map g (seq 0 n) with [] => n0 | p :: ps => fold_left nadd ps p end.
Definition col (n : nat) (g : nat -> F) : vec F := map g (seq 0 n).
Definition grid (n : nat) (g : nat -> nat -> F) : mat F := map (fun i => col n (g i)) (seq 0 n).
Definition coord (v : vec F) (i : nat) : F := nth i v n0.
Definition entry (A : mat F) (i j : nat) : F := nth j (nth i A []) n0.
Definition square_of (n : nat) (A : mat F) : Prop := length A = n /\ forall r, In r A -> length r = n.

(** [a_ij - g_i c_j / (c . s)] with the defect [g = a s - y]; [through] the matrix,
    [a_ij - (sum_k (g_i c_k) a_kj) / ((c a) . s)]. *)
Definition rank_one (through : bool) (n : nat) (a : nat -> nat -> F) (s y c : nat -> F) : mat F :=
  let g i := nsub (series n (fun k => nmul (a i k) (s k))) (y i) in
  if through then
    let d := series n (fun j => nmul (series n (fun i => nmul (c i) (a i j))) (s j)) in
    grid n (fun i j => nsub (a i j) (ndiv (series n (fun k => nmul (nmul (g i) (c k)) (a k j))) d))
  else
    let d := series n (fun k => nmul (c k) (s k)) in
    grid n (fun i j => nsub (a i j) (ndiv (nmul (g i) (c j)) d)).

(** The matrix of each method from the matrix [J], its inverse [H], the move [s], the
    change of the errors [y] and the errors [c]. *)
Definition next_matrix (u : update_method) (n : nat) (J H : mat F) (s y c : vec F) : mat F :=
  match u with
  | BroydenFirstMethod => rank_one false n (entry J) (coord s) (coord y) (coord s)
  | BroydenSecondMethod => rank_one true n (entry J) (coord s) (coord y) (coord y)
  | GreenstadtFirstMethod => rank_one true n (entry J) (coord s) (coord y) (coord c)
  | GreenstadtSecondMethod =>
      rank_one false n (entry J) (coord s) (coord y) (fun i => series n (fun k => nmul (entry H i k) (coord y k)))
  end.
(** The inverse of each method: move and change exchanged. *)
Definition next_inverse (u : update_method) (n : nat) (H : mat F) (s y c : vec F) : mat F :=
  match u with
  | BroydenFirstMethod => rank_one true n (entry H) (coord y) (coord s) (coord s)
  | BroydenSecondMethod => rank_one false n (entry H) (coord y) (coord s) (coord y)
  | GreenstadtFirstMethod => rank_one false n (entry H) (coord y) (coord s) (coord c)
  | GreenstadtSecondMethod =>
      rank_one false n (entry H) (coord y) (coord s)
        (fun i => series n (fun k => nmul (series n (fun l => nmul (entry H l i) (entry H l k))) (coord y k)))
  end.

(** ** The operations on tables *)
Lemma list_table {T} (l : list T) d n : length l = n -> map (fun k => nth k l d) (seq 0 n) = l.
Proof.
  revert n; induction l as [|x l IH]; intros n <-; [reflexivity|].
  cbn [length seq map nth]; f_equal; rewrite <- seq_shift, map_map; exact (IH _ eq_refl).
Qed.
Lemma col_of n v : length v = n -> col n (coord v) = v.
Proof. intros L; unfold col, coord; apply list_table, L. Qed.
Lemma grid_of n A : square_of n A -> grid n (entry A) = A.
Proof.
  intros [L R]; unfold grid; transitivity (map (fun k => nth k A []) (seq 0 n)); [|apply list_table, L].
  apply map_ext_in; intros i Hi; apply in_seq in Hi.
  apply (col_of n (nth i A [])), R, nth_In; lia.
Qed.
Lemma map2_maps {T A B C} (f : A -> B -> C) (a : T -> A) (b : T -> B) : forall l,
  map2 f (map a l) (map b l) = map (fun x => f (a x) (b x)) l.
Proof. induction l as [|x l IH]; [reflexivity|]; cbn [map map2]; rewrite IH; reflexivity. Qed.

Lemma dot_col n u v : dot (col n u) (col n v) = series n (fun k => nmul (u k) (v k)).
Proof. unfold dot, series, col; rewrite map2_maps; reflexivity. Qed.
Lemma sub_col n u v : vsub_raw (col n u) (col n v) = col n (fun k => nsub (u k) (v k)).
Proof. apply map2_maps. Qed.
Lemma mat_vec_grid n a v : mat_vec (grid n a) (col n v) = col n (fun i => series n (fun k => nmul (a i k) (v k))).
Proof. unfold mat_vec, grid; rewrite map_map; apply map_ext; intros i; apply dot_col. Qed.
Lemma nth_table {T} (g : nat -> T) d n i : i < n -> nth i (map g (seq 0 n)) d = g i.
Proof.
  intros Hi; rewrite (nth_indep _ d (g O)) by (rewrite map_length, seq_length; exact Hi).
  rewrite map_nth, seq_nth by exact Hi; reflexivity.
Qed.
Lemma transpose_grid n a : transpose (grid n a) = grid n (fun i j => a j i).
Proof.
  unfold transpose, grid; rewrite map_length, seq_length; apply map_ext_in; intros i Hi; apply in_seq in Hi.
  rewrite map_map; apply map_ext; intros j; unfold col; apply (nth_table (a j)); lia.
Qed.
Lemma vec_mat_grid n v a : vec_mat (col n v) (grid n a) = col n (fun j => series n (fun k => nmul (v k) (a k j))).
Proof. unfold vec_mat; rewrite transpose_grid; unfold grid; rewrite map_map; apply map_ext; intros j; apply dot_col. Qed.
Lemma mat_mul_grid n a b : mat_mul (grid n a) (grid n b) = grid n (fun i j => series n (fun k => nmul (a i k) (b k j))).
Proof.
  change (map (fun r => vec_mat r (grid n b)) (map (fun i => col n (a i)) (seq 0 n))
    = map (fun i => col n (fun j => series n (fun k => nmul (a i k) (b k j)))) (seq 0 n)).
  rewrite map_map; apply map_ext; intros i; apply vec_mat_grid.
Qed.
Lemma outer_col n u v : outer (col n u) (col n v) = grid n (fun i j => nmul (u i) (v j)).
Proof. unfold outer, grid, col; rewrite map_map; apply map_ext; intros i; rewrite map_map; reflexivity. Qed.
Lemma mat_div_grid n a d : mat_div (grid n a) d = grid n (fun i j => ndiv (a i j) d).
Proof. unfold mat_div, grid; rewrite map_map; apply map_ext; intros i; unfold vdiv, col; rewrite map_map; reflexivity. Qed.
Lemma mat_sub_grid n a b : mat_sub (grid n a) (grid n b) = grid n (fun i j => nsub (a i j) (b i j)).
Proof. unfold mat_sub, grid; rewrite map2_maps; apply map_ext; intros i; apply sub_col. Qed.

Lemma plain_formula n a s y c :
  mat_sub (grid n a) (mat_div (outer (defect (grid n a) (col n s) (col n y)) (col n c)) (dot (col n c) (col n s)))
  = rank_one false n a s y c.
Proof. unfold defect; rewrite mat_vec_grid, sub_col, outer_col, mat_div_grid, mat_sub_grid, dot_col; reflexivity. Qed.
Lemma through_formula n a s y c :
  mat_sub (grid n a) (mat_div (mat_mul (outer (defect (grid n a) (col n s) (col n y)) (col n c)) (grid n a))
                              (dot (vec_mat (col n c) (grid n a)) (col n s)))
  = rank_one true n a s y c.
Proof.
  unfold defect; rewrite mat_vec_grid, sub_col, outer_col, mat_mul_grid, mat_div_grid, mat_sub_grid, vec_mat_grid, dot_col.
  reflexivity.
Qed.

(** The updated matrices and the inverse found by the elimination are square. *)
Lemma grid_square n g : square_of n (grid n g).
Proof.
  split; [unfold grid; rewrite map_length, seq_length; reflexivity|].
  intros r Hr; apply in_map_iff in Hr; destruct Hr as (i & <- & _); unfold col; rewrite map_length, seq_length; reflexivity.
Qed.
Lemma rank_one_square through n a s y c : square_of n (rank_one through n a s y c).
Proof. unfold rank_one; destruct through; apply grid_square. Qed.
Lemma next_matrix_square u n J H s y c : square_of n (next_matrix u n J H s y c).
Proof. destruct u; apply rank_one_square. Qed.
Lemma next_inverse_square u n H s y c : square_of n (next_inverse u n H s y c).
Proof. destruct u; apply rank_one_square. Qed.

Lemma swap_rows_in {A} (rows : list A) k x : In x (swap_rows rows k) -> In x rows.
Proof.
  unfold swap_rows; destruct k as [|k]; [auto|]; destruct rows as [|r0 rest]; [auto|].
  destruct (nth_error rest k) as [rk|] eqn:E; [|auto].
  cbn [In]; intros [<-|H]; [right; eapply nth_error_In, E|].
  apply in_app_or in H; destruct H as [H|[<-|H]]; [right|left; reflexivity|right].
  - rewrite <- (firstn_skipn k rest); apply in_or_app; left; exact H.
  - rewrite <- (firstn_skipn (S k) rest); apply in_or_app; right; exact H.
Qed.
Lemma axpy_length (a : F) x acc : length x = length acc -> length (axpy a x acc) = length acc.
Proof. intros L; unfold axpy; rewrite length_map2; congruence. Qed.
Lemma lu_forward_rows m : forall n (rows : list (vec F * vec F)) u, lu_forward n rows = Some u ->
  (forall rb, In rb rows -> length (snd rb) = m) -> forall rb, In rb u -> length (snd rb) = m.
Proof.
  induction n as [|n IH]; intros rows u E Q rb; cbn [lu_forward] in E.
  - injection E as <-; intros [].
  - set (k := icamax _) in E.
    assert (Q' : forall rb, In rb (swap_rows rows k) -> length (snd rb) = m) by (intros x Hx; apply Q, (swap_rows_in rows k), Hx).
    destruct (swap_rows rows k) as [|[piv b] rest]; [injection E as <-; intros []|].
    destruct (neqb (hd n0 piv) n0); [discriminate|].
    match type of E with
    | match ?e with _ => _ end = _ => destruct e as [u'|] eqn:EU; [|discriminate]
    end.
    injection E as <-; assert (Lb := Q' _ (or_introl eq_refl)); cbn [snd] in Lb.
    intros [<-|Hu]; [exact Lb|].
    apply (IH _ _ EU); [|exact Hu].
    intros x Hx; apply in_map_iff in Hx; destruct Hx as (y & <- & Hy); cbn [snd].
    assert (Ly := Q' y (or_intror Hy)).
    eapply eq_trans; [apply axpy_length, (eq_trans Lb), eq_sym, Ly|exact Ly].
Qed.
Lemma lu_backward_rows m : forall (u : list (vec F * vec F)), (forall rb, In rb u -> length (snd rb) = m) ->
  forall r, In r (lu_backward u) -> length r = m.
Proof.
  induction u as [|[row b] u IH]; intros Q r; cbn [lu_backward]; [intros []|].
  assert (IH' := IH (fun rb H => Q rb (or_intror H))); intros [<-|Hr]; [|exact (IH' r Hr)].
  unfold vdiv; rewrite map_length.
  assert (Lb : length b = m) by exact (Q (row, b) (or_introl eq_refl)).
  assert (G : forall l, (forall ux, In ux l -> length (snd ux) = m) ->
    length (fold_right (fun (ux : F * vec F) acc => axpy (nneg (fst ux)) (snd ux) acc) b l) = m).
  { induction l as [|x l IHl]; intros Hl; cbn [fold_right]; [exact Lb|].
    assert (Lx := Hl x (or_introl eq_refl)); assert (Ll := IHl (fun y Hy => Hl y (or_intror Hy))).
    eapply eq_trans; [apply axpy_length, (eq_trans Lx), eq_sym, Ll|exact Ll]. }
  apply G; intros [x v] Hx; apply in_combine_r in Hx; exact (IH' v Hx).
Qed.
Lemma lu_inverse_square n (A H : mat F) : length A = n -> lu_inverse A = Some H -> square_of n H.
Proof.
  intros L E; split; [rewrite (lu_inverse_length A H E); exact L|]; revert E.
  unfold lu_inverse; rewrite L; destruct (lu_forward _ _) as [u|] eqn:U; intros E; [|discriminate].
  injection E as <-; apply lu_backward_rows, (lu_forward_rows n _ _ _ U).
  intros [a b] Hx; apply in_combine_r in Hx; apply in_map_iff in Hx; destruct Hx as (i & <- & _); cbn [snd].
  rewrite map_length, seq_length; reflexivity.
Qed.

(** ** The statements *)
Theorem C104_jacobian_updates : forall n u (j : jacobian_matrix F) J H s y c,
  square_of n J -> square_of n H -> length s = n -> length y = n -> length c = n ->
  jm_matrix j = Some J -> jm_inverse j = Some H ->
  approximate_jacobian j u s y c = Ret (update_jacobian_with_approximated_value j (next_matrix u n J H s y c)).
Proof.
  intros n u j J H s y c QJ QH Ls Ly Lc EJ EH; assert (LJ := proj1 QJ); assert (LH := proj1 QH).
  assert (GJ := grid_of n J QJ); assert (GH := grid_of n H QH).
  assert (Vs := col_of n s Ls); assert (Vy := col_of n y Ly); assert (Vc := col_of n c Lc).
  unfold approximate_jacobian; rewrite EJ, ?EH; destruct u; cbn [unwrap bind next_matrix].
  - rewrite (same_size_true J s y s n) by assumption; cbn [guard_shape bind].
    rewrite <- plain_formula, GJ, Vs, Vy; reflexivity.
  - rewrite (same_size_true J s y y n) by assumption; cbn [guard_shape bind].
    rewrite <- through_formula, GJ, Vs, Vy; reflexivity.
  - rewrite (same_size_true J s y c n) by assumption; cbn [guard_shape bind].
    rewrite <- through_formula, GJ, Vs, Vy, Vc; reflexivity.
  - unfold mat_vec_chk; rewrite LH, Ly, Nat.eqb_refl; cbn [bind].
    rewrite (same_size_true J s y (mat_vec H y) n) by (try assumption; unfold mat_vec; rewrite map_length; exact LH).
    cbn [guard_shape bind].
    rewrite <- plain_formula, <- mat_vec_grid, GJ, GH, Vs, Vy; reflexivity.
Qed.

Theorem C104_inverse_updates : forall n u (j : jacobian_matrix F) H s y c,
  square_of n H -> length s = n -> length y = n -> length c = n -> jm_inverse j = Some H ->
  approximate_inv_jacobian j u s y c = Ret (update_inverse j (next_inverse u n H s y c)).
Proof.
  intros n u j H s y c QH Ls Ly Lc EH; assert (LH := proj1 QH); assert (GH := grid_of n H QH).
  assert (Vs := col_of n s Ls); assert (Vy := col_of n y Ly); assert (Vc := col_of n c Lc).
  unfold approximate_inv_jacobian; rewrite EH; cbn [unwrap bind]; destruct u; cbn [next_inverse].
  - rewrite (same_size_true H s y s n) by assumption; cbn [guard_shape bind].
    rewrite <- through_formula, GH, Vs, Vy; reflexivity.
  - rewrite (same_size_true H s y y n) by assumption; cbn [guard_shape bind].
    rewrite <- plain_formula, GH, Vs, Vy; reflexivity.
  - rewrite (same_size_true H s y c n) by assumption; cbn [guard_shape bind].
    rewrite <- plain_formula, GH, Vs, Vy, Vc; reflexivity.
  - assert (LM : length (mat_mul (transpose H) H) = n) by (rewrite length_mat_mul, length_transpose; exact LH).
    unfold mat_vec_chk; rewrite LM, Ly, Nat.eqb_refl; cbn [bind].
    rewrite (same_size_true H s y _ n) by (try assumption; unfold mat_vec; rewrite map_length; exact LM).
    cbn [guard_shape bind].
    rewrite <- plain_formula, <- (mat_vec_grid n (fun i k => series n (fun l => nmul (entry H l i) (entry H l k))) (coord y)).
    rewrite <- (mat_mul_grid n (fun i l => entry H l i) (entry H)), <- (transpose_grid n (entry H)), GH, Vs, Vy.
    reflexivity.
Qed.
End Entries.
Print Assumptions C104_jacobian_updates.
Print Assumptions C104_inverse_updates.

(** Two equations: J = (2 1; 0 3), s = (1, 1), y = (4, 3), errors (1, 5); the defect is (-1, 0). *)
Definition sample_matrix : mat f64 := [[Fz 2; Fz 1]; [Fz 0; Fz 3]].
Definition sample_inverse : mat f64 := [[ndec 1 2; Fz (-1)]; [Fz 0; Fz 2]].
Definition same_entries (A B : mat f64) : bool :=
  forallb (fun rr => forallb (fun xy => neqb (fst xy) (snd xy)) (combine (fst rr) (snd rr))) (combine A B).
Definition sample_next (u : update_method) : mat f64 :=
  next_matrix u 2 sample_matrix sample_inverse [Fz 1; Fz 1] [Fz 4; Fz 3] [Fz 1; Fz 5].
Definition sample_next_inverse (u : update_method) : mat f64 :=
  next_inverse u 2 sample_inverse [Fz 1; Fz 1] [Fz 4; Fz 3] [Fz 1; Fz 5].
Example C104_case :
  same_entries (sample_next BroydenFirstMethod) [[ndec 5 2; ndec 3 2]; [Fz 0; Fz 3]] = true /\
  same_entries (sample_next BroydenSecondMethod) [[nadd (Fz 2) (ndec 8 21); nadd (Fz 1) (ndec 13 21)]; [Fz 0; Fz 3]] = true /\
  same_entries (sample_next GreenstadtFirstMethod) [[nadd (Fz 2) (ndec 2 18); nadd (Fz 1) (ndec 16 18)]; [Fz 0; Fz 3]] = true /\
  same_entries (sample_next GreenstadtSecondMethod) [[nsub (Fz 2) (ndec 1 5); nadd (Fz 1) (ndec 6 5)]; [Fz 0; Fz 3]] = true.
Proof. repeat split; vm_compute; reflexivity. Qed.
(** The defect of the inverse is (-2, 5). *)
Example C104_case_inverse :
  same_entries (sample_next_inverse BroydenSecondMethod)
    [[nadd (ndec 1 2) (ndec 8 25); nadd (Fz (-1)) (ndec 6 25)]; [ndec (-20) 25; nsub (Fz 2) (ndec 15 25)]] = true /\
  same_entries (sample_next_inverse BroydenFirstMethod)
    [[nadd (ndec 1 2) (ndec 1 5); nadd (Fz (-1)) (ndec 2 5)]; [ndec (-5) 10; nsub (Fz 2) (ndec 5 5)]] = true /\
  same_entries (sample_next_inverse GreenstadtFirstMethod)
    [[nadd (ndec 1 2) (ndec 2 19); nadd (Fz (-1)) (ndec 10 19)]; [ndec (-5) 19; nsub (Fz 2) (ndec 25 19)]] = true.
Proof. repeat split; vm_compute; reflexivity. Qed.
