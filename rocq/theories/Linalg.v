(** The operations of nalgebra used by /repo (nalgebra itself is not available
    here; this is the trusted reading of it, see DESIGN.md).

    Vectors are lists; matrices are lists of rows.
    Simplification: products are accumulated from left to right, as nalgebra
    does for sizes up to 5; for bigger sizes its blocked kernels may round
    differently. *)
From Verif Require Import Base Num.

(** [nalgebra::OVector<f64, D>] and slices, e.g. model_definition.rs:52-60. *)
Definition vec (F : Type) := list F.
(** [nalgebra::OMatrix<f64, D, D>], e.g. jacobian_struct.rs:25-26. *)
Definition mat (F : Type) := list (list F).

Section Linalg.
Context {F : Type} {NF : Num F}.

(** util_nalgebra.rs:1-48 (zeros of a given shape). *)
Definition vzeros (n : nat) : vec F := repeat n0 n.
(** util_nalgebra.rs:11-32, 42-48. *)
Definition mzeros (n : nat) : mat F := repeat (vzeros n) n.

(** [u - v], [u + v], [-v], [v * a], [v / a] on equal shapes.
    jacobian_finite_diff.rs:48; resolution_method.rs:188-285. *)
Definition vsub_raw (u v : vec F) : vec F := map2 nsub u v.
(** rootfinder.rs:322-323. *)
Definition vadd_raw (u v : vec F) : vec F := map2 nadd u v.
(** rootfinder.rs:323. *)
Definition vscale (v : vec F) (a : F) : vec F := map (fun x => nmul x a) v.
(** jacobian_finite_diff.rs:48; resolution_method.rs:188-285. *)
Definition vdiv (v : vec F) (a : F) : vec F := map (fun x => ndiv x a) v.

(** The same with nalgebra's shape assertion. rootfinder.rs:380-381;
    jacobian_finite_diff.rs:48. *)
Definition vsub (u v : vec F) : outcome (vec F) :=
  if Nat.eqb (length u) (length v) then Ret (vsub_raw u v) else Panic PanicShape.
(** rootfinder.rs:322-323. *)
Definition vadd (u v : vec F) : outcome (vec F) :=
  if Nat.eqb (length u) (length v) then Ret (vadd_raw u v) else Panic PanicShape.

(** Scalar product: the first product, then accumulation from left to right.
    resolution_method.rs:203, 218, 251, 269, 285. *)
Definition dot (u v : vec F) : F :=
  match map2 nmul u v with
  | [] => n0
  | p :: ps => fold_left nadd ps p
  end.

(** [A * v]. rootfinder.rs:293; resolution_method.rs:188-285. *)
Definition mat_vec (A : mat F) (v : vec F) : vec F := map (fun r => dot r v) A.

(** [A * v] for a square [A], with nalgebra's shape assertion. rootfinder.rs:293;
    jacobian_approximation.rs:41; jacobian_inverse_approximation.rs:38-40. *)
Definition mat_vec_chk (A : mat F) (v : vec F) : outcome (vec F) :=
  if Nat.eqb (length A) (length v) then Ret (mat_vec A v) else Panic PanicShape.

(** [A.transpose()] for a square [A]. jacobian_inverse_approximation.rs:38;
    resolution_method.rs:188-285. *)
Definition transpose (A : mat F) : mat F :=
  map (fun j => map (fun r => nth j r n0) A) (seq 0 (length A)).

(** [v^T * A] for a square [A]. resolution_method.rs:203, 218, 269. *)
Definition vec_mat (v : vec F) (A : mat F) : vec F :=
  map (fun c => dot v c) (transpose A).

(** [A * B] for square matrices. jacobian_inverse_approximation.rs:38-39;
    resolution_method.rs:203, 218, 269. *)
Definition mat_mul (A B : mat F) : mat F := map (fun r => vec_mat r B) A.

(** [u * v^T]. resolution_method.rs:188, 203, 218, 233, 251, 269, 285. *)
Definition outer (u v : vec F) : mat F := map (fun x => map (fun y => nmul x y) v) u.

(** [A - B], resolution_method.rs:188-285. *)
Definition mat_sub (A B : mat F) : mat F := map2 vsub_raw A B.
(** [A / a], resolution_method.rs:188-285. *)
Definition mat_div (A : mat F) (a : F) : mat F := map (fun r => vdiv r a) A.
(** [-A], rootfinder.rs:293. *)
Definition mat_neg (A : mat F) : mat F := map (map nneg) A.

(** [Matrix::norm_squared] of a vector. resolution_method.rs:188, 233. *)
Definition norm_squared (v : vec F) : F := dot v v.

(** [Matrix::amax]: fold of [simd_max] over the absolute values; on scalars
    [a.simd_max(b)] is [if a >= b { a } else { b }]. Empty: 0. rootfinder.rs:310,
    344, 409, 440; log.rs:146. *)
Definition amax (v : vec F) : F :=
  match v with
  | [] => nabs n0
  | x :: v' =>
      fold_left (fun a b => let b := nabs b in if ngeb a b then a else b) v' (nabs x)
  end.

(** A square matrix given by its first columns, the other columns being 0
    ([set_column] on a matrix of zeros, jacobian_finite_diff.rs:26-27,50). *)
Definition mat_of_cols (n : nat) (cols : list (vec F)) : mat F :=
  map (fun i => map (fun c => nth i c n0) cols ++ vzeros (n - length cols)) (seq 0 n).

(** *** LU inverse: [matrix.lu().try_inverse()]

    Rows are handled together with the corresponding row of the right-hand side
    (initially the identity), which is nalgebra's computation with the
    permutation and the forward substitution applied along the way.
    [nth]/[hd] defaults are never used on rectangular input. *)

(** [icamax] on the first column: index of the first entry of largest
    absolute value ([>] comparisons, so NaN never wins except at index 0). nalgebra,
    called by [lu()] in jacobian_struct.rs:11. *)
Fixpoint icamax_from (col : list F) (i : nat) (best : F) (ibest : nat) : nat :=
  match col with
  | [] => ibest
  | x :: col' =>
      if ngtb (nabs x) best then icamax_from col' (S i) (nabs x) i
      else icamax_from col' (S i) best ibest
  end.
(** nalgebra, called by [lu()] in jacobian_struct.rs:11. *)
Definition icamax (col : list F) : nat :=
  match col with
  | [] => 0
  | x :: col' => icamax_from col' 1 (nabs x) 0
  end.

(** Swap of rows 0 and [k]. nalgebra, called by [lu()] in jacobian_struct.rs:11. *)
Definition swap_rows {A} (rows : list A) (k : nat) : list A :=
  match k, rows with
  | S k', r0 :: rest =>
      match nth_error rest k' with
      | Some rk => rk :: (firstn k' rest ++ r0 :: skipn (S k') rest)
      | None => rows
      end
  | _, _ => rows
  end.

(** [y += a * x] (axpy). nalgebra, called by [lu()] and [try_inverse()] in
    jacobian_struct.rs:11-13. *)
Definition axpy (a : F) (x y : vec F) : vec F :=
  map2 (fun xi yi => nadd (nmul a xi) yi) x y.

(** Elimination: returns the upper-triangular rows (diagonal entry first, then
    the entries on its right) with their right-hand sides, or [None] as soon as
    a pivot is zero (nalgebra detects it in the back substitution). nalgebra, called
    in jacobian_struct.rs:11. *)
Fixpoint lu_forward (n : nat) (rows : list (vec F * vec F))
  : option (list (vec F * vec F)) :=
  match n with
  | O => Some []
  | S n' =>
      match swap_rows rows (icamax (map (fun rb => hd n0 (fst rb)) rows)) with
      | [] => Some []
      | (piv, b) :: rest =>
          let diag := hd n0 piv in
          if neqb diag n0 then None
          else
            let inv_diag := ndiv n1 diag in
            let step rb :=
              let coeff := nmul (hd n0 (fst rb)) inv_diag in
              (axpy (nneg coeff) (tl piv) (tl (fst rb)), axpy (nneg coeff) b (snd rb)) in
            match lu_forward n' (map step rest) with
            | Some u => Some ((piv, b) :: u)
            | None => None
            end
      end
  end.

(** Back substitution, for all right-hand sides at once. nalgebra, called in
    jacobian_struct.rs:13. *)
Fixpoint lu_backward (u : list (vec F * vec F)) : mat F :=
  match u with
  | [] => []
  | (row, b) :: u' =>
      let xs := lu_backward u' in
      let acc :=
        fold_right (fun ux acc => axpy (nneg (fst ux)) (snd ux) acc) b
                   (combine (tl row) xs) in
      vdiv acc (hd n0 row) :: xs
  end.

(** nalgebra, right-hand side of [try_inverse()] in jacobian_struct.rs:13. *)
Definition identity (n : nat) : mat F :=
  map (fun i => map (fun j => if Nat.eqb i j then n1 else n0) (seq 0 n)) (seq 0 n).

(** jacobian_struct.rs:11-13. *)
Definition lu_inverse (A : mat F) : option (mat F) :=
  let n := length A in
  match lu_forward n (combine A (identity n)) with
  | Some u => Some (lu_backward u)
  | None => None
  end.

End Linalg.

(** The inversion used by the solver, as an operational class: the control-flow
    theorems hold for any such function. jacobian_struct.rs:3-17 [compute_inverse]. *)
Class Inverter (F : Type) := try_inverse : mat F -> option (mat F).
