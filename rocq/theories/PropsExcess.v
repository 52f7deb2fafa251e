(** C19 and C91 with damping and finite differences: how far beyond the bounds. *)
From Coq Require Import Reals Lra.
From Flocq Require Import Core BinarySingleNaN.
From Verif Require Import Base Num Linalg Residuals Iteratives UserModel Jacobian Solver Trace
  F64 F64Facts F64Arith Tactics FlowFacts FlagFacts TraceFacts Samples Fresh Reach StepFacts LimitFacts
  PropsLimits PropsStep PropsNorm PropsFD PropsRun PropsPoints PropsBounds.
Open Scope R_scope.

(** ** One variable *)

(** The perturbation grows with the magnitude of the value. *)
Lemma perturbation_mono : forall (p : iterative_params_fd f64) (y m : f64),
  isfin (fd_dx_abs p) = true -> isfin (fd_dx_rel p) = true ->
  nltb n0 (fd_dx_abs p) = true -> nltb n0 (fd_dx_rel p) = true ->
  isfin y = true -> isfin m = true -> Rabs (key y) <= key m ->
  isfin (compute_perturbation p m) = true ->
  isfin (compute_perturbation p y) = true /\
  0 <= key (compute_perturbation p y) <= key (compute_perturbation p m).
Proof.
  intros p y m Fa Fr Pa Pr Fy Fm L FD.
  apply ltb_true_inv in Pa, Pr; destruct Pa as (_ & Na & Pa), Pr as (_ & Nr & Pr).
  rewrite key_n0 in Pa, Pr.
  destruct (mul_fin (nabs y) (fd_dx_rel p) ltac:(rewrite abs_fin; exact Fy) Fr) as [Ny Ky].
  destruct (mul_fin (nabs m) (fd_dx_rel p) ltac:(rewrite abs_fin; exact Fm) Fr) as [Nm Km].
  rewrite key_abs in Ky, Km; rewrite (Rabs_pos_eq (key m)) in Km by (pose proof (Rabs_pos (key y)); lra).
  set (a := nmul (nabs y) (fd_dx_rel p)) in *; set (c := nmul (nabs m) (fd_dx_rel p)) in *.
  assert (AC : 0 <= key a <= key c).
  { rewrite Ky, Km; split.
    - assert (0 <= Rabs (key y) * key (fd_dx_rel p)) by (apply Rmult_le_pos; [apply Rabs_pos|lra]).
      rewrite <- (sat_id 0) by (rewrite Rabs_R0; pose proof big_pos; lra).
      apply sat_le, rnd_ge0; assumption.
    - apply sat_le, rnd_le, Rmult_le_compat_r; lra. }
  assert (FIN : forall d : f64, isnan d = false -> 0 <= key d < big -> isfin d = true).
  { intros d Nd Bd; apply key_finite; [exact Nd|]; rewrite Rabs_pos_eq; lra. }
  unfold compute_perturbation in *; fold a; fold c in FD |- *.
  destruct (fd_method p).
  - destruct (nmax_key (fd_dx_abs p) a Na Ny) as (N1 & K1 & _).
    destruct (nmax_key (fd_dx_abs p) c Na Nm) as (N2 & K2 & _).
    assert (B := key_bound _ FD); fold big in B.
    assert (LE : 0 <= key (nmax (fd_dx_abs p) a) <= key (nmax (fd_dx_abs p) c)).
    { rewrite K1, K2; split.
      - eapply Rle_trans; [|apply Rmax_l]; lra.
      - apply Rle_max_compat_l; apply AC. }
    split; [apply FIN; [exact N1|lra]|exact LE].
  - assert (Fc : isfin c = true).
    { destruct c as [|s| |]; try reflexivity; try discriminate Nm.
      exfalso; destruct (fd_dx_abs p) as [|s'| |]; try discriminate Fa; destruct s; discriminate FD. }
    assert (Bc := key_bound _ Fc); fold big in Bc.
    assert (Fy' : isfin a = true) by (apply FIN; [exact Ny|lra]).
    destruct (add_fin (fd_dx_abs p) a Fa Fy') as [N1 K1].
    destruct (add_fin (fd_dx_abs p) c Fa Fc) as [N2 K2].
    assert (B := key_bound _ FD); fold big in B.
    assert (LE : 0 <= key (nadd (fd_dx_abs p) a) <= key (nadd (fd_dx_abs p) c)).
    { rewrite K1, K2; split.
      - rewrite <- (sat_id 0) by (rewrite Rabs_R0; pose proof big_pos; lra).
        apply sat_le, rnd_ge0; lra.
      - apply sat_le, rnd_le; lra. }
    split; [apply FIN; [exact N1|lra]|exact LE].
Qed.

(** The largest perturbation between [lo] and [h], and the largest value it leads
    to. *)
Definition top_perturbation (p : iterative_params_fd f64) (h : f64) : f64 :=
  compute_perturbation p (nmax (nabs (min_value (fd_params p))) (nabs h)).
Definition reach (p : iterative_params_fd f64) (h : f64) : f64 := nadd h (top_perturbation p h).

(** [h] is above the maximum by enough: half way between the largest perturbed
    value and the maximum is not above [h]. *)
Record room (p : iterative_params_fd f64) (h : f64) : Prop := {
  ro_lo : halvable (min_value (fd_params p));
  ro_hi : isfin (max_value (fd_params p)) = true;
  ro_h : isfin h = true;
  ro_order : nleb (max_value (fd_params p)) h = true;
  ro_abs : isfin (fd_dx_abs p) = true /\ nltb n0 (fd_dx_abs p) = true;
  ro_rel : isfin (fd_dx_rel p) = true /\ nltb n0 (fd_dx_rel p) = true;
  ro_reach : isfin (top_perturbation p h) = true /\ isfin (reach p h) = true;
  ro_half : nleb (damped1 (reach p h) (max_value (fd_params p))) h = true
}.

Lemma between_fin (lo v hi : f64) : isfin lo = true -> isfin hi = true -> between lo v hi ->
  isfin v = true /\ key lo <= key v <= key hi.
Proof.
  intros Fl Fh [L U]; apply leb_true_inv in L, U; destruct L as (_ & Nv & L), U as (_ & _ & U).
  split; [|lra]; apply key_finite; [exact Nv|].
  assert (B1 := key_bound _ Fl); assert (B2 := key_bound _ Fh); fold big in B1, B2.
  apply Rabs_def1; lra.
Qed.
Lemma fin_between (lo v hi : f64) : isfin lo = true -> isfin v = true -> isfin hi = true ->
  key lo <= key v <= key hi -> between lo v hi.
Proof. intros F1 F2 F3 B; split; apply leb_key; auto using fin_not_nan; lra. Qed.

Section Room.
Context (p : iterative_params_fd f64) (h : f64) (RO : room p h).
Notation lo := (min_value (fd_params p)).
Notation hi := (max_value (fd_params p)).

Lemma lo_fin : isfin lo = true. Proof. apply (ro_lo p h RO). Qed.

Lemma room_wider v : between lo v hi -> between lo v h.
Proof.
  intros B; destruct (between_fin _ _ _ lo_fin (ro_hi p h RO) B) as [Fv Kv].
  assert (L := ro_order p h RO); apply leb_true_inv in L; destruct L as (_ & _ & L).
  apply fin_between; auto using lo_fin, (ro_h p h RO); lra.
Qed.

Lemma widest : isfin (nmax (nabs lo) (nabs h)) = true /\
  Rabs (key lo) <= key (nmax (nabs lo) (nabs h)) /\ Rabs (key h) <= key (nmax (nabs lo) (nabs h)).
Proof.
  destruct RO as [[Fl _] _ Fh _ _ _ _ _].
  destruct (nmax_key (nabs lo) (nabs h)) as (N & K & E);
    [rewrite abs_nan; auto using fin_not_nan|rewrite abs_nan; auto using fin_not_nan|].
  split; [destruct E as [-> | ->]; rewrite abs_fin; assumption|].
  rewrite K, !key_abs; split; [apply Rmax_l|apply Rmax_r].
Qed.

Lemma perturbed_reach y : between lo y h ->
  between lo (nadd y (compute_perturbation p y)) (reach p h) /\ between lo y (reach p h).
Proof.
  intros B; destruct widest as (Fm & M1 & M2).
  destruct RO as [[Fl _] _ Fh _ [Fa Pa] [Fr Pr] [Ft Frr] _].
  destruct (between_fin _ _ _ Fl Fh B) as [Fy Ky].
  assert (KY : Rabs (key y) <= key (nmax (nabs lo) (nabs h))).
  { apply Rabs_le; pose proof (Rle_abs (key h)); pose proof (Rle_abs (- key lo)) as Q;
      rewrite Rabs_Ropp in Q; lra. }
  destruct (perturbation_mono p y _ Fa Fr Pa Pr Fy Fm KY Ft) as [Fd [D1 D2]].
  fold (top_perturbation p h) in D2.
  destruct (add_fin y _ Fy Fd) as [N1 K1]; destruct (add_fin h _ Fh Ft) as [N2 K2].
  fold (reach p h) in N2, K2.
  assert (LO : key y <= key (nadd y (compute_perturbation p y))).
  { rewrite K1, <- (sat_key y Fy) at 1; apply sat_le; rewrite <- (rnd_key y Fy) at 1; apply rnd_le; lra. }
  assert (HI : key (nadd y (compute_perturbation p y)) <= key (reach p h)).
  { rewrite K1, K2; apply sat_le, rnd_le; lra. }
  assert (B1 := key_bound _ Fy); assert (B2 := key_bound _ Frr); fold big in B1, B2.
  assert (FS : isfin (nadd y (compute_perturbation p y)) = true)
    by (apply key_finite; [exact N1|]; apply Rabs_def1; lra).
  split; apply fin_between; auto; lra.
Qed.

Lemma half_way z w : between lo z (reach p h) -> between lo w hi -> between lo (damped1 z w) h.
Proof.
  intros BZ BW; destruct RO as [[Fl Hl] FH Fh _ _ _ [_ Frr] HF].
  destruct (between_fin _ _ _ Fl Frr BZ) as [Fz Kz]; destruct (between_fin _ _ _ Fl FH BW) as [Fw Kw].
  destruct (damped1_fin z w Fz Fw) as [N1 K1]; destruct (damped1_fin _ _ Frr FH) as [N2 K2].
  apply leb_true_inv in HF; destruct HF as (_ & _ & HF).
  destruct (half_fin lo Fl) as (_ & Kl); rewrite Kl in Hl.
  assert (LO : key lo <= key (damped1 z w)).
  { rewrite K1, <- (sat_key lo Fl); apply sat_le; rewrite <- (rnd_key lo Fl) at 1; apply rnd_le.
    assert (rnd (key lo / 2) <= rnd (key z / 2)) by (apply rnd_le; lra).
    assert (rnd (key lo / 2) <= rnd (key w / 2)) by (apply rnd_le; lra). lra. }
  assert (HI : key (damped1 z w) <= key h).
  { eapply Rle_trans; [|exact HF]; rewrite K1, K2; apply sat_le, rnd_le.
    assert (rnd (key z / 2) <= rnd (key (reach p h) / 2)) by (apply rnd_le; lra).
    assert (rnd (key w / 2) <= rnd (key hi / 2)) by (apply rnd_le; lra). lra. }
  split; apply leb_key; auto using fin_not_nan; lra.
Qed.
End Room.

(** ** All variables *)
Open Scope nat_scope.

Section Boxes.
Context (fs : list (iterative_params_fd f64)) (hs : list f64) (RO : Forall2 room fs hs).
Notation ps := (map fd_params fs).
Notation its := (map iterative_of_params_fd fs).

Definition up_to (top : iterative_params_fd f64 -> f64 -> f64) (x : vec f64) : Prop :=
  forall i p h v, nth_error fs i = Some p -> nth_error hs i = Some h -> nth_error x i = Some v ->
  between (min_value (fd_params p)) v (top p h).

Lemma room_at i p : nth_error fs i = Some p -> exists h, nth_error hs i = Some h /\ room p h.
Proof.
  clear - RO; revert i; induction RO as [|a h fs' hs' RA R' IH]; intros [|i] H; try discriminate.
  - injection H as <-; exists h; auto.
  - apply (IH R' i H).
Qed.

Lemma box_wider x : in_box ps x -> up_to (fun _ h => h) x.
Proof.
  intros B i p h v Hp Hh Hv; destruct (room_at i p Hp) as (h' & Hh' & R).
  rewrite Hh in Hh'; injection Hh' as <-.
  apply (room_wider p h R), (B i (fd_params p) v); [|exact Hv].
  rewrite nth_error_map, Hp; reflexivity.
Qed.

Lemma wider_reach x : up_to (fun _ h => h) x -> up_to reach x.
Proof.
  intros B i p h v Hp Hh Hv; destruct (room_at i p Hp) as (h' & Hh' & R).
  rewrite Hh in Hh'; injection Hh' as <-.
  apply (perturbed_reach p h R), (B i p h v); assumption.
Qed.

Lemma shift_nth (d : f64) : forall x j i, nth_error (shift x j d) i =
  if Nat.eqb i j then option_map (fun a => nadd a d) (nth_error x i) else nth_error x i.
Proof.
  unfold shift; induction x as [|a x IH]; intros [|j] [|i]; cbn [firstn skipn app nth_error Nat.eqb option_map];
    try reflexivity.
  - destruct (Nat.eqb i j); reflexivity.
  - apply IH.
Qed.

Lemma point_reach y x : up_to (fun _ h => h) y -> perturbed_point its y x -> up_to reach x.
Proof.
  intros B (j & d & PD & ->) i p h v Hp Hh Hv; rewrite shift_nth in Hv.
  destruct (Nat.eqb_spec i j) as [<-|N]; [|exact (wider_reach y B i p h v Hp Hh Hv)].
  destruct (room_at i p Hp) as (h' & Hh' & R); rewrite Hh in Hh'; injection Hh' as <-.
  unfold perturbation_at in PD; rewrite nth_error_map, Hp in PD; cbn [option_map] in PD.
  destruct PD as (u & Hu & PD); rewrite Hu in Hv; cbn [option_map] in Hv; injection Hv as <-.
  cbn [it_compute_perturbation iterative_of_params_fd] in PD; injection PD as <-.
  apply (perturbed_reach p h R u), (B i p h u); assumption.
Qed.

Lemma damped_reach z w d : up_to reach z -> in_box ps w -> damped_guess z w = Ret d ->
  up_to (fun _ h => h) d.
Proof.
  intros BZ BW Hd i p h x Hp Hh Hx.
  assert (Hl : length z = length w /\ length d = length z).
  { unfold damped_guess, vadd, vscale in Hd; rewrite !map_length in Hd.
    destruct (Nat.eqb (length z) (length w)) eqn:E; [|discriminate Hd].
    apply Nat.eqb_eq in E; injection Hd as <-; split; [exact E|].
    unfold vadd_raw; rewrite PropsIteration.length_map2; now rewrite !map_length. }
  destruct Hl as (L1 & L2).
  assert (Hlt : i < length d) by (apply nth_error_Some; congruence).
  destruct (nth_error z i) as [a|] eqn:Ea; [|apply nth_error_None in Ea; lia].
  destruct (nth_error w i) as [b|] eqn:Eb; [|apply nth_error_None in Eb; lia].
  rewrite (damped_guess_nth _ _ _ Hd i a b Ea Eb) in Hx; injection Hx as <-.
  destruct (room_at i p Hp) as (h' & Hh' & R); rewrite Hh in Hh'; injection Hh' as <-.
  apply (half_way p h R).
  - apply (BZ i p h a); assumption.
  - apply (BW i (fd_params p) b); [rewrite nth_error_map, Hp; reflexivity|exact Eb].
Qed.
End Boxes.

(** ** The run *)

(** The point at which the computation of a step leaves the model. *)
Section Left.
Context {IF : Inverter f64} {St EI EU : Type} (M : Model f64 St EI EU) (K : keeps_iteratives M)
  (KM : forall s m, get_iteratives M (set_memory M s m) = get_iteratives M s).

Lemma columns_left conf n mem ref res dx : forall todo i s s' r,
  finite_difference_columns M conf n mem ref res dx todo i s = Ret (s', r) ->
  get_iteratives M s' = get_iteratives M s \/
  exists k d, nth_error dx k = Some d /\ get_iteratives M s' = shift ref k d.
Proof.
  induction todo as [|todo IH]; intros i s s' r H; cbn [finite_difference_columns] in H.
  - injection H as <- _; left; reflexivity.
  - destruct (index dx i) as [d|] eqn:E0; [|discriminate H]; cbn [bind] in H.
    destruct (update_at ref i _) as [x|] eqn:E1; [|discriminate H]; cbn [bind] in H.
    destruct (evaluate M (set_iteratives M s x)) as [[s1 r1]|] eqn:E2; [|discriminate H]; cbn [bind] in H.
    apply update_at_shift in E1; destruct E1 as [E1 _]; assert (X : get_iteratives M s1 = shift ref i d) by (rewrite <- E1; exact (ki_evaluate M K _ _ _ _ E2)).
    assert (R : exists k d', nth_error dx k = Some d' /\ get_iteratives M s1 = shift ref k d').
    { exists i, d; split; [|exact X]; unfold index in E0.
      destruct (nth_error dx i); [injection E0 as <-; reflexivity|discriminate E0]. }
    assert (REST : (values <- get_residuals M s1 ;;
          res0 <- evaluate_update_residuals conf values ;;
          diff <- vsub res0 res ;;
          let col := vdiv diff d in
          guard_shape (Nat.eqb (length col) n) (
            '(s2, rest) <- finite_difference_columns M conf n mem ref res dx todo (S i) (set_memory M s1 mem) ;;
            Ret (s2, match rest with Ok cols => Ok (col :: cols) | Err e => Err e end))) = Ret (s', r) ->
      exists k d', nth_error dx k = Some d' /\ get_iteratives M s' = shift ref k d').
    { clear H; intros H; minv1 H; minv1 H; minv1 H; cbv zeta in H; unfold guard_shape in H.
      destruct (Nat.eqb _ n); [|discriminate H]; minv1 H; injection H as <- _.
      destruct (IH _ _ _ _ E5) as [->|Q]; [rewrite KM; exact R|exact Q]. }
    right; destruct r1 as [v|[e|e]]; [exact (REST H)|exact (REST H)|].
    injection H as <- _; exact R.
Qed.

Lemma step_left rf s rf' s' r : compute_step M rf s = Ret (rf', s', r) ->
  get_iteratives M s' = get_iteratives M s \/
  perturbed_point (rf_iters_params rf) (get_iteratives M s) (get_iteratives M s').
Proof.
  intros H.
  assert (J : forall rf1 s1 r1, compute_jac M rf s = Ret (rf1, s1, r1) ->
    get_iteratives M s1 = get_iteratives M s \/
    perturbed_point (rf_iters_params rf) (get_iteratives M s) (get_iteratives M s1)).
  { intros rf1 s1 r1 C; apply compute_jac_inv in C; destruct C as (j & r0 & _ & C & _).
    destruct (jacobian_provided M s).
    - left; unfold evaluate_jacobian_from_analytical_function in C; minv1 C; minv1 C.
      match goal with X : get_jacobian M s = _ |- _ => apply (ki_jacobian M K) in X; rename X into G end.
      destruct b as [jv|e']; [minv1 C; destruct (update_jacobian_with_exact_value _ _)|]; injection C as _ <- _; exact G.
    - unfold evaluate_jacobian_from_finite_difference in C; minv1 C; rename E into EP; minv1 C.
      rename E into ED.
      assert (S1 : s1 = a) by (destruct b as [A|e]; [destruct (update_jacobian_with_exact_value _ _)|];
        injection C as _ <- _; reflexivity); subst s1.
      unfold compute_jacobian_from_finite_difference in ED.
      minv1 ED; minv1 ED; minv1 ED; injection ED as <- _.
      match goal with X : finite_difference_columns _ _ _ _ _ _ _ _ _ _ = _ |- _ => apply columns_left in X;
        destruct X as [X|(k & d & D1 & D2)]; [left; exact X|] end.
      right; exists k, d; split; [exact (compute_perturbations_at _ _ _ EP k d D1)|exact D2]. }
  unfold compute_step in H; destruct (sp_resolution_method (rf_parameters rf)) as [|m].
  - unfold compute_newton_raphson_step in H; minv1 H; pose proof (J _ _ _ eq_refl) as J1; minv1 H.
    destruct b; [minv1 H|]; injection H as _ <- _; exact J1.
  - unfold compute_quasi_newton_step in H; minv1 H.
    match type of E with _ = Ret (_, ?z, _) => assert (G : get_iteratives M z = get_iteratives M s \/
      perturbed_point (rf_iters_params rf) (get_iteratives M s) (get_iteratives M z)) end.
    { unfold evaluate_jacobian_quasi_newton_step in E; destruct (jm_compute_at_next (rf_jacobian rf)).
      - minv1 E; pose proof (J _ _ _ eq_refl) as J1; minv1 E; injection E as _ <- _; exact J1.
      - minv1 E; match type of E with (if ?b then _ else _) = _ => destruct b end;
          [minv1 E|]; injection E as _ <- _; left; reflexivity. }
    destruct b; [minv1 H|]; injection H as _ <- _; exact G.
Qed.
End Left.

Section Run.
Context {IF : Inverter f64} {St EI EU : Type} (M : Model f64 St EI EU) (K : keeps_iteratives M)
  (KM : forall s m, get_iteratives M (set_memory M s m) = get_iteratives M s).
Context (fs : list (iterative_params_fd f64)) (hs : list f64) (RO : Forall2 room fs hs).
Notation its := (map iterative_of_params_fd fs).
Notation ps := (map fd_params fs).
Notation within := (up_to fs hs (fun _ h => h)).
Notation reachable := (up_to fs hs reach).

Lemma limits_fd : limits_of its ps.
Proof. right; exists fs; split; reflexivity. Qed.

Lemma excess_iteration : ordered ps -> forall rf s t rf' p' r,
  rf_iters_params rf = its -> within (get_iteratives M s) -> Forall reachable (points t) ->
  iteration (traced M) rf (s, t) = Ret (rf', p', r) ->
  Forall reachable (points (snd p')) /\ (forall e, r = Ok e -> within (get_iteratives M (fst p'))).
Proof.
  intros Ho rf s t rf' p' r EI0 HB Ht H. apply iteration_inv in H.
  destruct H as (rf1 & p1 & r1 & Hs & H). assert (Hs' := Hs).
  apply step_points in Hs'. destruct Hs' as (s1 & b & -> & Hb). cbn [rf_iters_params set_iter] in Hb.
  assert (Hl := step_left (traced M) (keeps_traced M K) (fun p m => KM (fst p) m) _ _ _ _ _ Hs).
  cbn [rf_iters_params set_iter get_iteratives traced fst] in Hl; rewrite EI0 in Hl, Hb.
  assert (Z : reachable (get_iteratives M s1)).
  { destruct Hl as [->|Hl]; [exact (wider_reach fs hs RO _ HB)|exact (point_reach fs hs RO _ _ HB Hl)]. }
  assert (A : Forall reachable (points (t ++ b))).
  { rewrite points_app; apply Forall_app; split; [exact Ht|].
    eapply Forall_impl; [|exact Hb]; intros x Hx; exact (point_reach fs hs RO _ _ HB Hx). }
  destruct r1 as [g|e].
  - apply compute_step_inv in Hs. destruct Hs as (Hj & Hg). specialize (Hg g eq_refl).
    apply same_but_jac_fields in Hj. destruct Hj as ((Hp & _ & Hi & _) & _). cbn in Hp, Hi.
    assert (Hbox : in_box ps g).
    { unfold compute_next_from_inv_jac in Hg. minv1 Hg. minv1 Hg. minv1 Hg. minv1 Hg.
      rewrite Hi, EI0 in Hg. eapply step_limitations_box; eauto using limits_fd. }
    assert (Wg := box_wider fs hs RO g Hbox); assert (Rg := wider_reach fs hs RO g Wg).
    apply update_model_inv in H. destruct H as (e0 & p2 & r2 & _ & Hev & H).
    apply traced_set_eval_inv in Hev. destruct Hev as (s2 & Hev & ->).
    assert (Hg2 := ki_evaluate M K _ _ _ _ Hev).
    assert (Ht2 : Forall reachable (points ((t ++ b) ++ [ESet g; EEval (status_of r2)]))).
    { rewrite points_app. apply Forall_app. split; [exact A|]. constructor; [exact Rg|constructor]. }
    destruct H as [(x & _ & _ & -> & ->)|(en & -> & _ & Hf)].
    + split; [exact Ht2|discriminate].
    + apply finish_update_full in Hf. destruct Hf as (e1 & _ & Hf & _).
      destruct (_ && _ && _).
      * destruct Hf as (d & u & Hd & Hde & _). apply traced_set_eval_inv in Hde.
        destruct Hde as (s3 & Hde & ->).
        assert (Wd : within d) by (eapply (damped_reach fs hs RO); [|exact Hbox|exact Hd]; exact Z).
        cbn [fst snd]. split.
        -- rewrite points_app. apply Forall_app. split; [exact Ht2|].
           constructor; [exact (wider_reach fs hs RO d Wd)|constructor].
        -- intros _ _. rewrite (ki_evaluate M K _ _ _ _ Hde). exact Wd.
      * destruct Hf as (-> & _). cbn [fst snd]. split; [exact Ht2|]. intros _ _. rewrite Hg2. exact Wg.
  - destruct H as (_ & -> & ->). split; [exact A|discriminate].
Qed.

Lemma excess_heads : ordered ps -> forall rf0 s0 rf p me,
  rf_iters_params rf0 = its -> in_box ps (rf_initial_guess rf0) ->
  loop_head (traced M) rf0 (s0, []) rf p me ->
  Forall reachable (points (snd p)) /\ within (get_iteratives M (fst p)).
Proof.
  intros Ho rf0 s0 rf p me EI0 Hg H; apply (box_wider fs hs RO) in Hg.
  induction H as [p r e rf Hev Hnu He Hdb|rf p me rf1 p1 e Hh IH Hc Hit].
  - apply traced_set_eval_inv in Hev. destruct Hev as (s1 & Hev & ->). cbn [snd fst]; split.
    + constructor; [exact (wider_reach fs hs RO _ Hg)|constructor].
    + rewrite (ki_evaluate M K _ _ _ _ Hev); exact Hg.
  - apply loop_head_config in Hh. destruct Hh as (_ & _ & Hi & _).
    destruct p as [s t], IH as [I1 I2].
    destruct (excess_iteration Ho rf s t rf1 p1 (Ok e)) as [J1 J2]; auto; [congruence|].
    split; [exact J1|exact (J2 e eq_refl)].
Qed.
End Run.

(** With damping and finite differences the points stay close to the box: when
    each variable has room up to [h] (see [room]), the model is evaluated at no
    point past [h] moved by the largest perturbation there, and never below the
    minimum. *)
Theorem C19_excess :
  forall (IF : Inverter f64) St EI EU (M : Model f64 St EI EU) rf fs hs s rf' s' t r,
  keeps_iteratives M -> (forall s m, get_iteratives M (set_memory M s m) = get_iteratives M s) ->
  rf_iters_params rf = map iterative_of_params_fd fs -> Forall accepted (map fd_params fs) ->
  Forall2 room fs hs -> in_box (map fd_params fs) (rf_initial_guess rf) ->
  solve (traced M) rf (s, []) = Ret (rf', (s', t), r) ->
  Forall (up_to fs hs reach) (points t).
Proof.
  intros IF St EI EU M rf fs hs s rf' s' t r K KM EI0 A RO Hg H.
  apply ordered_accepted in A.
  destruct (solve_heads _ _ _ _ _ _ H)
    as [(x & _ & _ & Hev)|[(me & Hh & _)|(rf1 & p1 & me & x & Hh & _ & Hit & _)]].
  - apply traced_set_eval_inv in Hev. destruct Hev as (s1 & _ & Hp). injection Hp as _ ->. cbn.
    constructor; [|constructor]. apply (wider_reach fs hs RO), (box_wider fs hs RO), Hg.
  - apply (excess_heads M K KM fs hs RO A rf s rf' (s', t) me); auto.
  - destruct (excess_heads M K KM fs hs RO A rf s rf1 p1 me) as [X B]; auto.
    apply loop_head_config in Hh. destruct Hh as (_ & _ & Hi & _).
    destruct p1 as [s1 t1].
    apply (excess_iteration M K KM fs hs RO A rf1 s1 t1 rf' (s', t) (Err x)); auto; congruence.
Qed.
Print Assumptions C19_excess.

(** And the reported point is not past [h]. *)
Theorem C91_excess :
  forall (IF : Inverter f64) St EI EU (M : Model f64 St EI EU) rf fs hs s rf' s' t r,
  keeps_iteratives M -> (forall s m, get_iteratives M (set_memory M s m) = get_iteratives M s) ->
  rf_iters_params rf = map iterative_of_params_fd fs -> Forall accepted (map fd_params fs) ->
  Forall2 room fs hs -> in_box (map fd_params fs) (rf_initial_guess rf) ->
  solve (traced M) rf (s, []) = Ret (rf', (s', t), r) ->
  r = Ok tt \/ r = Err NonConvergenceError \/ r = Err FinalEvaluationError ->
  up_to fs hs (fun _ h => h) (get_iteratives M s').
Proof.
  intros IF St EI EU M rf fs hs s rf' s' t r K KM EI0 A RO Hg H Hr.
  apply ordered_accepted in A.
  destruct (result_head (traced M) rf (s, []) rf' (s', t) r H Hr) as (me & Hh).
  exact (proj2 (excess_heads M K KM fs hs RO A rf s rf' (s', t) me EI0 Hg Hh)).
Qed.
Print Assumptions C91_excess.

(** [room], computed. *)
Definition has_room (p : iterative_params_fd f64) (h : f64) : bool :=
  isfin (max_value (fd_params p)) && isfin h && nleb (max_value (fd_params p)) h &&
  isfin (fd_dx_abs p) && nltb n0 (fd_dx_abs p) && isfin (fd_dx_rel p) && nltb n0 (fd_dx_rel p) &&
  isfin (top_perturbation p h) && isfin (reach p h) &&
  nleb (damped1 (reach p h) (max_value (fd_params p))) h.
Lemma has_room_true p h : halvable (min_value (fd_params p)) -> has_room p h = true -> room p h.
Proof.
  intros L H; unfold has_room in H; rewrite !andb_true_iff in H.
  destruct H as [[[[[[[[[H1 H2] H3] H4] H5] H6] H7] H8] H9] H10]; split; auto.
Qed.

(** The function [hill] between 0 and 1 with perturbations of 1, where a solution
    outside the bounds is reported (3/2, as in [C91_run]): there is room up to 2,
    and the model is evaluated at most at 3. *)
Definition hill_params : iterative_params_fd f64 :=
  mkIterativeParamsFD (mkIterativeParams ninf ninf (Fz 0) (Fz 1)) PMax (Fz 1) (ndec 1 4).
Definition hill_rf : rootfinder f64 :=
  sample_rf (params6 1 50 NewtonRaphson true) [Fz 1] [iterative_of_params_fd hill_params] (abs_conf 1).
Example C91_excess_case :
  room hill_params (Fz 2) /\ neqb (reach hill_params (Fz 2)) (Fz 3) = true /\
  check_run (solve (traced C91_model) hill_rf (scripted_init 1, []))
    (fun rf p r => is_ok r && match points (snd p), sc_x (fst p) with
       | [a] :: [b] :: [c] :: [d] :: _, [x] =>
           neqb a (Fz 1) && neqb b (Fz 2) && neqb c (Fz 1) && neqb d (ndec 3 2) && neqb x d
       | _, _ => false end) = true /\
  keeps_iteratives C91_model /\
  forall s m, get_iteratives C91_model (set_memory C91_model s m) = get_iteratives C91_model s.
Proof.
  split; [apply has_room_true; [apply C39_halvable; [reflexivity|left; reflexivity]|vm_compute; reflexivity]|].
  split; [vm_compute; reflexivity|]. split; [vm_compute; reflexivity|].
  split; [apply scripted_keeps|reflexivity].
Qed.

(** With the perturbations of the default parameters, between 0 and 1: room up to
    1 + 2^-24, and evaluations up to less than 1 + 2^-23. *)
Definition unit_params : iterative_params_fd f64 :=
  mkIterativeParamsFD (mkIterativeParams ninf ninf (Fz 0) (Fz 1)) PMax
    (fd_dx_abs default_iterative_params_fd) (fd_dx_rel default_iterative_params_fd).
Example C19_excess_default : let h : f64 := ndec 16777217 16777216 in
  room unit_params h /\ nltb (reach unit_params h) (ndec 8388609 8388608) = true.
Proof.
  split; [apply has_room_true; [apply C39_halvable; [reflexivity|left; reflexivity]|]|];
    vm_compute; reflexivity.
Qed.
