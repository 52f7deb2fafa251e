(** C86: every residual is measured as it was configured, from the vector of
    configurations to the values used by the solver. *)
From Verif Require Import Base Num Linalg Residuals Spec Samples F64 ResidualFacts.

Section Kept.
Context {F : Type} {NF : Num F}.

Lemma convert_nth (l : list residual_config) i :
  nth_error (fst (convert_into_vecs l)) i = option_map rc_stopping (nth_error l i) /\
  nth_error (snd (convert_into_vecs l)) i = option_map rc_update (nth_error l i).
Proof. unfold convert_into_vecs; cbn [fst snd]; rewrite !nth_error_map; auto. Qed.

(** The vectors made of a list of configurations are accepted, and the values
    of a model with as many equations give, for each equation, the magnitude of
    its residual by its own stopping method and its residual by its own update
    method. *)
Theorem C86_residuals : forall configs (left right : vec F),
  length left = length configs -> length right = length configs ->
  exists conf v e u,
    residuals_config_new (fst (convert_into_vecs configs)) (snd (convert_into_vecs configs)) = Ret conf /\
    residuals_values_new left right = Ret v /\
    residuals_config_len conf = length configs /\ residuals_values_len v = length configs /\
    evaluate_stopping_residuals conf v = Ret e /\ evaluate_update_residuals conf v = Ret u /\
    length e = length configs /\ length u = length configs /\
    (forall i, length configs <= i -> get_values v i = Panic PanicIndex) /\
    forall i stopping update l r,
      nth_error configs i = Some (mkResidualConfig stopping update) ->
      nth_error left i = Some l -> nth_error right i = Some r ->
      get_values v i = Ret (l, r) /\
      nth_error e i = Some (nabs (residual stopping l r)) /\
      nth_error u i = Some (residual update l r).
Proof.
  intros configs left right HL HR.
  assert (LS : length (fst (convert_into_vecs configs)) = length configs)
    by apply map_length.
  assert (LU : length (snd (convert_into_vecs configs)) = length configs)
    by apply map_length.
  set (st := fst (convert_into_vecs configs)) in *; set (up := snd (convert_into_vecs configs)) in *.
  exists (mkResidualsConfig st up), (mkResidualsValues left right).
  unfold evaluate_stopping_residuals, evaluate_update_residuals; cbn [stopping_criterias update_methods rv_left rv_right].
  destruct (evaluate_residuals_ret (fun x y m => nabs (normalization x y m)) st left right) as [e E];
    [rewrite LS, HL; apply le_n|rewrite LS, HR; apply le_n|].
  destruct (evaluate_residuals_ret normalization up left right) as [u U];
    [rewrite LU, HL; apply le_n|rewrite LU, HR; apply le_n|].
  exists e, u.
  destruct (evaluate_residuals_inv _ _ _ _ _ E) as (_ & _ & E3 & E4 & _).
  destruct (evaluate_residuals_inv _ _ _ _ _ U) as (_ & _ & U3 & U4 & _).
  split; [unfold residuals_config_new; rewrite LS, LU, Nat.eqb_refl; reflexivity|].
  split; [unfold residuals_values_new; rewrite HL, HR, Nat.eqb_refl; reflexivity|].
  split; [exact LS|]; split; [exact HL|]; split; [exact E|]; split; [exact U|].
  split; [congruence|]; split; [congruence|].
  split.
  { intros i H; unfold get_values, index; cbn [rv_left].
    replace (nth_error left i) with (@None F); [reflexivity|].
    symmetry; apply nth_error_None; congruence. }
  intros i stopping update l r C L R.
  destruct (convert_nth configs i) as [C1 C2]; rewrite C in C1, C2; cbn [option_map rc_stopping rc_update] in C1, C2.
  split; [unfold get_values, index; cbn [rv_left rv_right]; rewrite L, R; reflexivity|].
  destruct (E4 i stopping C1) as (x & y & X & Y & Z), (U4 i update C2) as (x' & y' & X' & Y' & Z').
  rewrite normalization_spec in Z, Z'.
  split; congruence.
Qed.

(** Vectors of different lengths are refused, and so are matrices that are not
    square of the same size. *)
Theorem C86_refused : 
  (forall stopping update, residuals_config_new stopping update =
     if Nat.eq_dec (length stopping) (length update) then Ret (mkResidualsConfig stopping update)
     else Panic PanicDim) /\
  (forall left right : vec F, residuals_values_new left right =
     if Nat.eq_dec (length left) (length right) then Ret (mkResidualsValues left right)
     else Panic PanicDim) /\
  (forall left right : mat F,
     (jacobian_values_new left right = Ret (mkJacobianValues left right) \/
      jacobian_values_new left right = Panic PanicDim) /\
     (jacobian_values_new left right = Ret (mkJacobianValues left right) <->
      length right = length left /\ forall row, In row (left ++ right) -> length row = length left)).
Proof.
  split; [|split].
  - intros st up; unfold residuals_config_new.
    destruct (Nat.eq_dec (length st) (length up)) as [E|N]; [rewrite E, Nat.eqb_refl; reflexivity|].
    apply Nat.eqb_neq in N; rewrite N; reflexivity.
  - intros st up; unfold residuals_values_new.
    destruct (Nat.eq_dec (length st) (length up)) as [E|N]; [rewrite E, Nat.eqb_refl; reflexivity|].
    apply Nat.eqb_neq in N; rewrite N; reflexivity.
  - intros left right; unfold jacobian_values_new, is_square.
    rewrite Nat.eqb_refl; cbn [andb].
    destruct (forallb (fun r => Nat.eqb (length r) (length left)) left) eqn:A.
    + destruct (Nat.eqb (length right) (length left)) eqn:B; cbn [andb].
      * destruct (forallb (fun r => Nat.eqb (length r) (length left)) right) eqn:C.
        -- split; [left; reflexivity|]; split; [intros _|reflexivity].
           apply Nat.eqb_eq in B; split; [exact B|]; intros row H.
           apply in_app_iff in H; rewrite forallb_forall in A, C.
           apply Nat.eqb_eq; destruct H; auto.
        -- split; [right; reflexivity|]; split; [discriminate|]; intros [_ H]; exfalso.
           assert (forallb (fun r => Nat.eqb (length r) (length left)) right = true); [|congruence].
           apply forallb_forall; intros row I; apply Nat.eqb_eq, H, in_app_iff; auto.
      * split; [right; reflexivity|]; split; [discriminate|]; intros [H _]; exfalso.
        apply Nat.eqb_neq in B; auto.
    + split; [right; reflexivity|]; split; [discriminate|]; intros [_ H]; exfalso.
      assert (forallb (fun r => Nat.eqb (length r) (length left)) left = true); [|congruence].
      apply forallb_forall; intros row I; apply Nat.eqb_eq, H, in_app_iff; auto.
Qed.
End Kept.

Print Assumptions C86_residuals.
Print Assumptions C86_refused.

(** Three equations with different methods. *)
Example C86_case :
  let l := [mkResidualConfig Rel Abs; mkResidualConfig Abs Adapt; mkResidualConfig Adapt Rel] in
  match residuals_config_new (fst (convert_into_vecs l)) (snd (convert_into_vecs l)),
        residuals_values_new [Fz 1; Fz 7; Fz 5] [Fz 3; Fz 3; Fz 1] with
  | Ret c, Ret v =>
      match evaluate_stopping_residuals c v, evaluate_update_residuals c v, get_values v 1 with
      | Ret [a; b; c], Ret [x; y; z], Ret (p, q) =>
          neqb a (Fz 1) && neqb b (Fz 4) && neqb c (Fz 1) &&
          neqb x (Fz (-2)) && neqb y (ndec 2 3) && neqb z (ndec 4 3) && neqb p (Fz 7) && neqb q (Fz 3)
      | _, _, _ => false
      end
  | _, _ => false
  end = true.
Proof. vm_compute. reflexivity. Qed.
