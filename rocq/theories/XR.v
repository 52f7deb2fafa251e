(** Exact real arithmetic with infinities and NaN as a scalar type: the code of
    /repo without rounding. It is [f64] arithmetic where every operation on
    finite numbers gives the exact result; overflow does not exist and there is
    a single zero, of positive sign ([signum 0 = 1], [x / 0 = +inf] for
    [x > 0]). *)
From Coq Require Import Reals Lra.
From Verif Require Import Base Num Linalg RNum.
Open Scope R_scope.

Inductive XR := Fin (r : R) | PInf | MInf | XNaN.

Definition xneg (x : XR) : XR :=
  match x with Fin r => Fin (- r) | PInf => MInf | MInf => PInf | XNaN => XNaN end.
Definition xabs (x : XR) : XR :=
  match x with Fin r => Fin (Rabs r) | PInf | MInf => PInf | XNaN => XNaN end.
Definition xsignum (x : XR) : XR :=
  match x with Fin r => Fin (Rsignum r) | PInf => Fin 1 | MInf => Fin (-1) | XNaN => XNaN end.
Definition xadd (x y : XR) : XR :=
  match x, y with
  | Fin a, Fin b => Fin (a + b)
  | XNaN, _ | _, XNaN => XNaN
  | PInf, MInf | MInf, PInf => XNaN
  | PInf, _ | _, PInf => PInf
  | MInf, _ | _, MInf => MInf
  end.
(** An infinity with the sign of [r], NaN for 0: [inf * r]. *)
Definition xinf_times (r : R) : XR :=
  if Rlt_dec 0 r then PInf else if Rlt_dec r 0 then MInf else XNaN.
Definition xmul (x y : XR) : XR :=
  match x, y with
  | Fin a, Fin b => Fin (a * b)
  | XNaN, _ | _, XNaN => XNaN
  | PInf, Fin r | Fin r, PInf => xinf_times r
  | MInf, Fin r | Fin r, MInf => xinf_times (- r)
  | PInf, PInf | MInf, MInf => PInf
  | PInf, MInf | MInf, PInf => MInf
  end.
Definition xdiv (x y : XR) : XR :=
  match x, y with
  | Fin a, Fin b => if Req_EM_T b 0 then xinf_times a else Fin (a / b)
  | XNaN, _ | _, XNaN => XNaN
  | Fin _, (PInf | MInf) => Fin 0
  | PInf, Fin b => if Rlt_dec b 0 then MInf else PInf
  | MInf, Fin b => if Rlt_dec b 0 then PInf else MInf
  | (PInf | MInf), (PInf | MInf) => XNaN
  end.
Definition xltb (x y : XR) : bool :=
  match x, y with
  | Fin a, Fin b => Rltb a b
  | MInf, (Fin _ | PInf) | Fin _, PInf => true
  | _, _ => false
  end.
Definition xeqb (x y : XR) : bool :=
  match x, y with
  | Fin a, Fin b => Reqb a b
  | PInf, PInf | MInf, MInf => true
  | _, _ => false
  end.
Definition xleb (x y : XR) : bool :=
  match x, y with
  | Fin a, Fin b => Rleb a b
  | MInf, (Fin _ | PInf | MInf) | (Fin _ | PInf), PInf => true
  | _, _ => false
  end.

#[global] Instance Num_XR : Num XR := {
  nadd := xadd; nsub := fun x y => xadd x (xneg y); nmul := xmul; ndiv := xdiv;
  nneg := xneg; nabs := xabs; nsignum := xsignum;
  nltb := xltb; nleb := xleb; neqb := xeqb;
  nofZ := fun z => Fin (IZR z); ninf := PInf; nnan := XNaN
}.
#[global] Instance Inverter_XR : Inverter XR := lu_inverse.

(** ** The operations on finite numbers are those of the reals *)
Definition lift : vec R -> vec XR := map Fin.
Definition liftm : mat R -> mat XR := map lift.

Lemma fin_add a b : nadd (Fin a) (Fin b) = Fin (a + b). Proof. reflexivity. Qed.
Lemma fin_sub a b : nsub (Fin a) (Fin b) = Fin (a - b). Proof. reflexivity. Qed.
Lemma fin_mul a b : nmul (Fin a) (Fin b) = Fin (a * b). Proof. reflexivity. Qed.
Lemma fin_div a b : b <> 0 -> ndiv (Fin a) (Fin b) = Fin (a / b).
Proof.
  intros H; cbn [ndiv Num_XR]; unfold xdiv; destruct (Req_EM_T b 0); [contradiction|reflexivity].
Qed.
Lemma fin_inj a b : Fin a = Fin b -> a = b. Proof. congruence. Qed.

Lemma lift_length v : length (lift v) = length v. Proof. apply map_length. Qed.
Lemma liftm_length A : length (liftm A) = length A. Proof. apply map_length. Qed.
Lemma lift_inj : forall u v, lift u = lift v -> u = v.
Proof.
  induction u as [|a u IH]; intros [|b v] H; try discriminate; [reflexivity|].
  cbn [lift map] in H; inversion H; f_equal; auto.
Qed.
Lemma liftm_inj : forall A B, liftm A = liftm B -> A = B.
Proof.
  induction A as [|a A IH]; intros [|b B] H; try discriminate; [reflexivity|].
  cbn [liftm map] in H; inversion H as [[H1 H2]]; f_equal; [apply lift_inj; exact H1|auto].
Qed.

Lemma lift_map2 (f : XR -> XR -> XR) (g : R -> R -> R) :
  (forall a b, f (Fin a) (Fin b) = Fin (g a b)) ->
  forall u v, map2 f (lift u) (lift v) = lift (map2 g u v).
Proof.
  intros H; induction u as [|a u IH]; intros [|b v]; cbn [map2 lift map]; try reflexivity.
  rewrite H; f_equal; apply IH.
Qed.
Lemma lift_map (f : XR -> XR) (g : R -> R) :
  (forall a, f (Fin a) = Fin (g a)) -> forall u, map f (lift u) = lift (map g u).
Proof. intros H u; unfold lift; rewrite !map_map; apply map_ext; exact H. Qed.

Lemma lift_vsub_raw u v : vsub_raw (lift u) (lift v) = lift (vsub_raw u v).
Proof. apply (lift_map2 nsub nsub); reflexivity. Qed.
Lemma lift_vadd_raw u v : vadd_raw (lift u) (lift v) = lift (vadd_raw u v).
Proof. apply (lift_map2 nadd nadd); reflexivity. Qed.
Lemma lift_vsub u v : length u = length v -> vsub (lift u) (lift v) = Ret (lift (vsub_raw u v)).
Proof.
  intros H; unfold vsub; rewrite !lift_length, H, Nat.eqb_refl, lift_vsub_raw; reflexivity.
Qed.
Lemma lift_vadd u v : length u = length v -> vadd (lift u) (lift v) = Ret (lift (vadd_raw u v)).
Proof.
  intros H; unfold vadd; rewrite !lift_length, H, Nat.eqb_refl, lift_vadd_raw; reflexivity.
Qed.
Lemma lift_vscale u a : vscale (lift u) (Fin a) = lift (vscale u a).
Proof. unfold vscale; apply lift_map; reflexivity. Qed.
Lemma lift_vdiv u a : a <> 0 -> vdiv (lift u) (Fin a) = lift (vdiv u a).
Proof. intros H; unfold vdiv; apply lift_map; intros; apply fin_div; exact H. Qed.
Lemma lift_axpy a u v : axpy (Fin a) (lift u) (lift v) = lift (axpy a u v).
Proof. unfold axpy; apply lift_map2; reflexivity. Qed.
Lemma map_repeat_eq {A B} (f : A -> B) x n : map f (repeat x n) = repeat (f x) n.
Proof. induction n as [|n IH]; cbn [repeat map]; [reflexivity|rewrite IH; reflexivity]. Qed.
Lemma lift_vzeros n : @vzeros XR _ n = lift (vzeros n).
Proof. unfold vzeros, lift; rewrite map_repeat_eq; reflexivity. Qed.
Lemma lift_mzeros n : @mzeros XR _ n = liftm (mzeros n).
Proof. unfold mzeros, liftm; rewrite map_repeat_eq, lift_vzeros; reflexivity. Qed.

Lemma lift_fold_add : forall l a, fold_left nadd (lift l) (Fin a) = Fin (fold_left nadd l a).
Proof. induction l as [|b l IH]; intros a; cbn [fold_left lift map]; [reflexivity|]; apply IH. Qed.
Lemma lift_dot u v : dot (lift u) (lift v) = Fin (dot u v).
Proof.
  unfold dot; rewrite (lift_map2 nmul nmul) by reflexivity.
  destruct (map2 nmul u v); [reflexivity|apply lift_fold_add].
Qed.
Lemma lift_mat_vec A v : mat_vec (liftm A) (lift v) = lift (mat_vec A v).
Proof.
  unfold mat_vec, liftm, lift; rewrite !map_map; apply map_ext; intros; apply lift_dot.
Qed.
Lemma lift_mat_neg A : mat_neg (liftm A) = liftm (mat_neg A).
Proof.
  unfold mat_neg, liftm; rewrite !map_map; apply map_ext; intros; apply lift_map; reflexivity.
Qed.
Lemma lift_mat_vec_chk A v :
  length A = length v -> mat_vec_chk (liftm A) (lift v) = Ret (lift (mat_vec A v)).
Proof.
  intros H; unfold mat_vec_chk; rewrite liftm_length, lift_length, H, Nat.eqb_refl, lift_mat_vec.
  reflexivity.
Qed.
Lemma lift_nth v i : nth i (lift v) n0 = Fin (nth i v 0).
Proof. exact (map_nth Fin v 0 i). Qed.
Lemma lift_nth_error v i : nth_error (lift v) i = option_map Fin (nth_error v i).
Proof. apply nth_error_map. Qed.
Lemma liftm_nth A i : nth i (liftm A) [] = lift (nth i A []).
Proof. exact (map_nth lift A [] i). Qed.

Lemma lift_mat_of_cols n cols : mat_of_cols n (map lift cols) = liftm (mat_of_cols n cols).
Proof.
  unfold mat_of_cols, liftm; rewrite map_map; apply map_ext; intros i.
  unfold lift at 3; rewrite map_app, !map_map, map_length; f_equal.
  - apply map_ext; intros c; apply lift_nth.
  - apply lift_vzeros.
Qed.

Lemma lift_amax v : amax (lift v) = Fin (amax v).
Proof.
  assert (H : forall l a,
    fold_left (fun a b : XR => let b := nabs b in if ngeb a b then a else b) (lift l) (Fin a)
    = Fin (fold_left (fun a b : R => let b := nabs b in if ngeb a b then a else b) l a)).
  { induction l as [|b l IH]; intros a; [reflexivity|].
    cbn [fold_left lift map]; cbn [nabs Num_XR Num_R xabs]; unfold ngeb at 2 4.
    cbn [nleb Num_XR Num_R xleb]; destruct (Rleb (Rabs b) a); apply IH. }
  destruct v as [|a v]; [reflexivity|apply H].
Qed.

(** ** The LU inverse *)
Definition liftr (rb : vec R * vec R) : vec XR * vec XR := (lift (fst rb), lift (snd rb)).

Lemma lift_hd v : hd n0 (lift v) = Fin (hd 0 v).
Proof. destruct v; reflexivity. Qed.
Lemma lift_tl v : tl (lift v) = lift (tl v).
Proof. destruct v; reflexivity. Qed.

Lemma lift_icamax col : icamax (lift col) = icamax col.
Proof.
  assert (H : forall c i b k, icamax_from (lift c) i (Fin b) k = icamax_from c i b k).
  { induction c as [|x c IH]; intros; cbn [icamax_from lift map]; [reflexivity|].
    unfold ngtb; cbn [nabs nltb Num_XR Num_R xabs xltb].
    destruct (Rltb b (Rabs x)); apply IH. }
  destruct col as [|x col]; [reflexivity|]; cbn [icamax lift map]; apply H.
Qed.
Lemma map_swap_rows {A B} (f : A -> B) rows k :
  map f (swap_rows rows k) = swap_rows (map f rows) k.
Proof.
  destruct k as [|k], rows as [|r rows]; cbn [swap_rows map]; try reflexivity.
  rewrite nth_error_map; destruct (nth_error rows k) as [rk|]; cbn [option_map]; [|reflexivity].
  cbn [map]; rewrite map_app, firstn_map; cbn [map]; rewrite <- skipn_map; reflexivity.
Qed.

Lemma lift_lu_forward : forall n rows,
  lu_forward n (map liftr rows) = option_map (map liftr) (lu_forward n rows).
Proof.
  induction n as [|n IH]; intros rows; cbn [lu_forward]; [reflexivity|].
  match goal with |- match swap_rows _ (icamax ?c) with _ => _ end
    = option_map _ (match swap_rows _ (icamax ?d) with _ => _ end) =>
    assert (Hc : icamax c = icamax d) end.
  { rewrite <- lift_icamax; f_equal; unfold lift; rewrite !map_map.
    apply map_ext; intros; apply lift_hd. }
  rewrite Hc, <- map_swap_rows; clear Hc.
  match goal with |- context [swap_rows rows ?k] => destruct (swap_rows rows k)
    as [|[piv b] rest] end; cbn [map]; [reflexivity|].
  unfold liftr at 1; cbn [fst snd]; rewrite lift_hd.
  change (neqb (Fin (hd 0 piv)) n0) with (Reqb (hd 0 piv) 0).
  change (neqb (hd (n0 : R) piv) n0) with (Reqb (hd 0 piv) 0).
  destruct (Reqb (hd 0 piv) 0) eqn:Hz; [reflexivity|].
  apply Reqb_false in Hz.
  change (@n1 XR Num_XR) with (Fin 1); rewrite (fin_div 1 (hd 0 piv) Hz).
  match goal with |- context [lu_forward n (map ?f (map liftr rest))] =>
    match goal with |- context [option_map _ (match lu_forward n (map ?g rest) with _ => _ end)] =>
      replace (map f (map liftr rest)) with (map liftr (map g rest)) end end.
  - rewrite IH.
    match goal with |- context [lu_forward n ?r] => destruct (lu_forward n r) end; reflexivity.
  - rewrite !map_map; apply map_ext; intros [u w]; unfold liftr; cbn [fst snd].
    rewrite lift_hd, !lift_tl, fin_mul.
    change (nneg (Fin (hd 0 u * (1 / hd 0 piv)))) with (Fin (- (hd 0 u * (1 / hd 0 piv)))).
    rewrite !lift_axpy; reflexivity.
Qed.

Lemma lu_forward_pivots : forall n rows u,
  lu_forward n rows = Some u -> Forall (fun rb : vec R * vec R => hd 0 (fst rb) <> 0) u.
Proof.
  induction n as [|n IH]; intros rows u H; cbn [lu_forward] in H.
  - inversion H; constructor.
  - destruct (swap_rows _ _) as [|[piv b] rest]; [inversion H; constructor|].
    change (neqb (hd (n0 : R) piv) n0) with (Reqb (hd 0 piv) 0) in H.
    destruct (Reqb (hd 0 piv) 0) eqn:Hz; [discriminate|].
    match type of H with context [lu_forward n ?r] => destruct (lu_forward n r) eqn:E end;
      [|discriminate].
    inversion H; constructor; [apply Reqb_false; exact Hz|eapply IH; exact E].
Qed.

Lemma lift_lu_backward : forall u,
  Forall (fun rb : vec R * vec R => hd 0 (fst rb) <> 0) u ->
  lu_backward (map liftr u) = liftm (lu_backward u).
Proof.
  induction u as [|[row b] u IH]; intros H; cbn [lu_backward map]; [reflexivity|].
  inversion H as [|? ? H1 H2]; subst; cbn [fst] in H1.
  unfold liftr at 1; rewrite (IH H2), lift_hd, lift_tl.
  cbn [liftm map]; f_equal.
  assert (E : forall xs r,
    fold_right (fun ux acc => axpy (nneg (fst ux)) (snd ux) acc) (lift b)
      (combine (lift r) (liftm xs))
    = lift (fold_right (fun ux acc => axpy (nneg (fst ux)) (snd ux) acc) b (combine r xs))).
  { intros xs r; revert xs; induction r as [|x r IHr]; intros [|y xs];
      cbn [combine lift liftm map fold_right fst snd]; try reflexivity.
    change (map Fin r) with (lift r); change (map lift xs) with (liftm xs).
    rewrite IHr; exact (lift_axpy (- x) y _). }
  rewrite E; apply lift_vdiv; exact H1.
Qed.

Lemma lift_identity n : @identity XR _ n = liftm (identity n).
Proof.
  unfold identity, liftm, lift; rewrite map_map; apply map_ext; intros i.
  rewrite map_map; apply map_ext; intros j; destruct (Nat.eqb i j); reflexivity.
Qed.

Lemma combine_map {A B C D} (f : A -> C) (g : B -> D) : forall a b,
  combine (map f a) (map g b) = map (fun p => (f (fst p), g (snd p))) (combine a b).
Proof.
  induction a as [|x a IH]; intros [|y b]; cbn [combine map]; try reflexivity.
  rewrite IH; reflexivity.
Qed.

Lemma lift_lu_inverse A : lu_inverse (liftm A) = option_map liftm (lu_inverse A).
Proof.
  unfold lu_inverse; rewrite liftm_length, lift_identity.
  unfold liftm at 1 2; rewrite combine_map.
  change (map (fun p => (lift (fst p), lift (snd p))) (combine A (identity (length A))))
    with (map liftr (combine A (identity (length A)))).
  rewrite lift_lu_forward.
  destruct (lu_forward (length A) (combine A (identity (length A)))) as [u|] eqn:E;
    cbn [option_map]; [|reflexivity].
  rewrite lift_lu_backward by (eapply lu_forward_pivots; exact E); reflexivity.
Qed.
