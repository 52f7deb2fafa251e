(** util/src/test_cases/broyden1965.rs and polynom.rs (spedicato1996.rs contains
    no code). *)
From Verif Require Import Base Num Linalg.

Section Cases.
Context {F : Type} {NF : Num F}.

(** ** broyden1965.rs *)

(** [(3.0 + alpha * x) * x]. broyden1965.rs:168-172. *)
Definition quad (alpha x : F) : F := nmul (nadd (nofZ 3) (nmul alpha x)) x.

(** broyden1965.rs:169-172, [outputs[1]], [outputs[2]], ...: [prev] is
    [outputs[i-1]] and the list starts at [x[i]]. *)
Fixpoint cases5to8_from (alpha beta prev : F) (x : vec F) : vec F :=
  match x with
  | [] => []
  | a :: x' =>
      match x' with
      | [] => [nsub (nsub prev (quad alpha a)) beta]
      | b :: _ =>
          let o := nsub (nadd (nsub prev (quad alpha a)) (nmul n2 b)) beta in
          o :: cases5to8_from alpha beta o x'
      end
  end.

(** broyden1965.rs:160-175 [broyden1965_cases5to8]; [x[1]] panics for fewer
    than two components. *)
Definition broyden1965_cases5to8 (x : vec F) (alpha beta : F) : outcome (vec F) :=
  match x with
  | a :: b :: _ =>
      let o := nsub (nadd (nmul (nneg (nadd (nofZ 3) (nmul alpha a))) a) (nmul n2 b)) beta in
      Ret (o :: cases5to8_from alpha beta o (tl x))
  | _ => Panic PanicIndex
  end.

(** Row [i] before the addition of the previous row: the diagonal and, except in
    the last row, the entry after it (broyden1965.rs:186-191, 197). *)
Definition cases5to8_row (n i : nat) (alpha a : F) : vec F :=
  map (fun j => if Nat.eqb j i then nsub (nofZ (-3)) (nmul (nmul n2 alpha) a)
                else if Nat.eqb j (S i) then n2 else n0) (seq 0 n).

(** broyden1965.rs:189-200: rows [i], [i+1], ... *)
Fixpoint cases5to8_jac_from (n i : nat) (alpha : F) (prev : vec F) (x : vec F) : mat F :=
  match x with
  | [] => []
  | a :: x' =>
      let row := map2 nadd (cases5to8_row n i alpha a) prev in
      row :: cases5to8_jac_from n (S i) alpha row x'
  end.

(** broyden1965.rs:177-203 [broyden1965_cases5to8_jac] *)
Definition broyden1965_cases5to8_jac (x : vec F) (alpha : F) : outcome (mat F) :=
  match x with
  | a :: _ :: _ =>
      let n := length x in
      let row := cases5to8_row n 0 alpha a in
      Ret (row :: cases5to8_jac_from n 1 alpha row (tl x))
  | _ => Panic PanicIndex
  end.

(** broyden1965.rs:128-158: [alpha] is -0.1 in case 5 and -0.5 in cases 6 to 8;
    [beta] is 1. *)
Definition alpha5 : F := nneg (ndec 1 10).
(** broyden1965.rs:136-158. *)
Definition alpha6 : F := nneg (ndec 5 10).
(** broyden1965.rs:128-130. *)
Definition broyden1965_case5 (x : vec F) := broyden1965_cases5to8 x alpha5 n1.
(** broyden1965.rs:132-134. *)
Definition broyden1965_case5_jac (x : vec F) := broyden1965_cases5to8_jac x alpha5.
(** broyden1965.rs:136-138. *)
Definition broyden1965_case6 (x : vec F) := broyden1965_cases5to8 x alpha6 n1.
(** broyden1965.rs:140-142. *)
Definition broyden1965_case6_jac (x : vec F) := broyden1965_cases5to8_jac x alpha6.
(** broyden1965.rs:144-146. *)
Definition broyden1965_case7 (x : vec F) := broyden1965_cases5to8 x alpha6 n1.
(** broyden1965.rs:148-150. *)
Definition broyden1965_case7_jac (x : vec F) := broyden1965_cases5to8_jac x alpha6.
(** broyden1965.rs:152-154. *)
Definition broyden1965_case8 (x : vec F) := broyden1965_cases5to8 x alpha6 n1.
(** broyden1965.rs:156-158. *)
Definition broyden1965_case8_jac (x : vec F) := broyden1965_cases5to8_jac x alpha6.

(** The solutions, broyden1965.rs:59-126: the last component is [a - sqrt b] and
    the others, upwards, [a - sqrt (b - c * next)]. [sqrt] is the library
    function. *)
Fixpoint solution_from (sqrt : F -> F) (a b c : F) (n : nat) : vec F :=
  match n with
  | O => []
  | S O => [nsub a (sqrt b)]
  | S n' =>
      let rest := solution_from sqrt a b c n' in
      nsub a (sqrt (nsub b (nmul c (hd n0 rest)))) :: rest
  end.
(** broyden1965.rs:59-67. *)
Definition solution_case5 (sqrt : F -> F) : vec F :=
  solution_from sqrt (nofZ 15) (nofZ 235) (nofZ 20) 5.
(** broyden1965.rs:72-80. *)
Definition solution_case6 (sqrt : F -> F) : vec F :=
  solution_from sqrt (nofZ 3) (nofZ 11) (nofZ 4) 5.
(** broyden1965.rs:85-98. *)
Definition solution_case7 (sqrt : F -> F) : vec F :=
  solution_from sqrt (nofZ 3) (nofZ 11) (nofZ 4) 10.
(** broyden1965.rs:103-126. *)
Definition solution_case8 (sqrt : F -> F) : vec F :=
  solution_from sqrt (nofZ 3) (nofZ 11) (nofZ 4) 20.

(** broyden1965.rs:215-229 *)
Definition broyden1965_case9 (x : vec F) : outcome (vec F) :=
  x0 <- index x 0 ;;
  x1 <- index x 1 ;;
  Ret [nmul (nofZ 10) (nsub x1 (nsq x0)); nsub n1 x0].
(** broyden1965.rs:222-229. *)
Definition broyden1965_case9_jac (x : vec F) : outcome (mat F) :=
  x0 <- index x 0 ;;
  Ret [[nmul (nofZ (-20)) x0; nofZ 10]; [nofZ (-1); n0]].
(** broyden1965.rs:208-213 *)
Definition solution_case9 : vec F := [n1; n1].

(** broyden1965.rs:241-256 *)
Definition broyden1965_case10 (x : vec F) : outcome (vec F) :=
  x0 <- index x 0 ;;
  x1 <- index x 1 ;;
  Ret [nadd (nadd (nofZ (-13)) x0)
            (nmul (nsub (nmul (nadd (nneg x1) (nofZ 5)) x1) n2) x1);
       nadd (nadd (nofZ (-29)) x0)
            (nmul (nsub (nmul (nadd x1 n1) x1) (nofZ 14)) x1)].
(** broyden1965.rs:248-256. *)
Definition broyden1965_case10_jac (x : vec F) : outcome (mat F) :=
  x1 <- index x 1 ;;
  Ret [[n1; nsub (nadd (nofZ (-2)) (nmul (nofZ 10) x1)) (nmul (nofZ 3) (nsq x1))];
       [n1; nadd (nadd (nofZ (-14)) (nmul n2 x1)) (nmul (nofZ 3) (nsq x1))]].
(** broyden1965.rs:234-239 *)
Definition solution_case10 : vec F := [nofZ 5; nofZ 4].

(** ** polynom.rs *)

(** polynom.rs:3-13; [x * x] is the product of two vectors, which nalgebra
    accepts only with one component. *)
Definition square2 (x : vec F) : outcome (vec F) :=
  match x with
  | [a] => Ret [nsub (nmul a a) n2]
  | _ => Panic PanicShape
  end.
(** polynom.rs:9-13. *)
Definition dsquare (x : vec F) : outcome (mat F) :=
  a <- index x 0 ;; Ret [[nmul n2 a]].

(** [x.powi(n)]. Simplification: taken to be the product [x * (x * ...)].
    polynom.rs:28-38. *)
Fixpoint npow (x : F) (n : nat) : F :=
  match n with
  | O => n1
  | S O => x
  | S n' => nmul x (npow x n')
  end.

(** polynom.rs:28-39; 1e9 and 9e9 are integers below 2^53. *)
Definition root_with_high_derivative (x : vec F) : outcome (vec F) :=
  a <- index x 0 ;;
  Ret [nsub (nmul (nofZ 1000000000) (npow a 9)) n1].
(** polynom.rs:34-38. *)
Definition root_with_high_derivative_jac (x : vec F) : outcome (mat F) :=
  a <- index x 0 ;;
  Ret [[nmul (nofZ 9000000000) (npow a 8)]].

End Cases.
