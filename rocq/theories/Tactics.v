(** Inversion of monadic equations. *)
From Verif Require Import Base Trace.

Ltac destr_prod p :=
  lazymatch type of p with
  | (_ * list (event _))%type => idtac
  | (_ * _)%type =>
      let a := fresh "a" in let b := fresh "b" in
      destruct p as [a b]; destr_prod a
  | _ => idtac
  end.

(** One step of inversion of [H : ... = Ret _]. *)
Ltac minv1 H :=
  lazymatch type of H with
  | bind ?e _ = Ret _ =>
      let E := fresh "E" in let x := fresh "x" in
      destruct e as [x|] eqn:E; cbn [bind] in H; [|discriminate H];
      destr_prod x
  | Ret _ = Ret _ => first [discriminate H | injection H; clear H; intros; subst]
  | Panic _ = Ret _ => discriminate H
  | (let '(_, _) := ?p in _) = Ret _ =>
      let E := fresh "E" in destruct p eqn:E
  | (if ?b then _ else _) = Ret _ => let E := fresh "E" in destruct b eqn:E; try discriminate H
  | (match ?r with _ => _ end) = Ret _ =>
      first [ destruct r; try discriminate H
            | let E := fresh "E" in destruct r eqn:E; try discriminate H ]
  end.
Ltac minv H := repeat minv1 H.
