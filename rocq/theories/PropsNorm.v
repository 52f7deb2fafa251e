(** The damped point (C39) and the zeros of the normalised residuals (C42). *)
From Coq Require Import Reals Lra Psatz.
From Flocq Require Import Core BinarySingleNaN Plus_error Mult_error.
From Verif Require Import Base Num Linalg Residuals Iteratives UserModel Jacobian Solver
  F64 F64Facts F64Arith LimitFacts Tactics FlowFacts Trace TraceFacts Reach StepFacts Samples
  PropsIteration PropsStep PropsLimits.
Open Scope R_scope.

(** *** C39 *)

Definition half : f64 := ndiv n1 n2.
Lemma half_key : key half = / 2 /\ isfin half = true.
Proof.
  split; [|vm_compute; reflexivity].
  rewrite (key_sf half false 4503599627370496 (-53)) by (vm_compute; reflexivity).
  unfold F2R. cbn [Fnum Fexp cond_Zopp]. change (IZR 4503599627370496) with (IZR (radix2 ^ 52)).
  rewrite IZR_Zpower by lia. rewrite <- bpow_plus. change (52 + -53)%Z with (-1)%Z. cbn. lra.
Qed.
Lemma factors : damping_factor = half /\ nsub n1 (damping_factor : f64) = half.
Proof.
  split; [reflexivity|]. apply B2SF_inj. vm_compute. reflexivity.
Qed.

(** [x] is finite and multiplying it by 1/2 is exact. *)
Definition halvable (x : f64) : Prop := isfin x = true /\ 2 * key (nmul x half) = key x.

Lemma sat_key : forall x : f64, isfin x = true -> sat (key x) = key x.
Proof.
  intros x H. apply sat_id. apply Rabs_le. apply key_bound in H. fold big in H. lra.
Qed.
Lemma rnd_key : forall x : f64, isfin x = true -> rnd (key x) = key x.
Proof. intros x H. rewrite key_fin by exact H. apply rnd_fin. Qed.

Lemma key_finite : forall x : f64, isnan x = false -> Rabs (key x) < big -> isfin x = true.
Proof.
  intros x Hn H. destruct x as [|[]| |]; try discriminate; try reflexivity; exfalso;
    cbn [key] in H; fold big in H; pose proof big_pos;
    [rewrite Rabs_Ropp in H|]; rewrite Rabs_pos_eq in H; lra.
Qed.

(** The damped value of one component. *)
Definition damped1 (a b : f64) : f64 := nadd (nmul a half) (nmul b half).

Lemma half_fin : forall x : f64, isfin x = true ->
  isfin (nmul x half) = true /\ key (nmul x half) = rnd (key x / 2).
Proof.
  intros x Hx. destruct half_key as (Kh & Fh). destruct (mul_fin x half Hx Fh) as (Hn & Hk).
  rewrite Kh in Hk. change (key x * / 2) with (key x / 2) in Hk.
  assert (Hb : Rabs (rnd (key x / 2)) < big).
  { rewrite rnd_abs. eapply Rle_lt_trans; [apply rnd_le with (b := Rabs (key x))|].
    - unfold Rdiv. rewrite Rabs_mult, (Rabs_pos_eq (/2)) by lra. pose proof (Rabs_pos (key x)). lra.
    - rewrite <- rnd_abs, rnd_key by exact Hx. apply key_bound in Hx. fold big in Hx. apply Rabs_lt. lra. }
  rewrite sat_id in Hk by lra. split; [|exact Hk].
  apply key_finite; [exact Hn|]. rewrite Hk. exact Hb.
Qed.

Lemma damped1_fin : forall a b : f64, isfin a = true -> isfin b = true ->
  isnan (damped1 a b) = false /\
  key (damped1 a b) = sat (rnd (rnd (key a / 2) + rnd (key b / 2))).
Proof.
  intros a b Ha Hb. destruct (half_fin a Ha) as (Fa & Ka). destruct (half_fin b Hb) as (Fb & Kb).
  unfold damped1. destruct (add_fin _ _ Fa Fb) as (H1 & H2). split; [exact H1|].
  rewrite H2, Ka, Kb. reflexivity.
Qed.

(** Bounds that can be halved exactly are kept. *)
Lemma damped1_bounds : forall lo hi a b : f64, halvable lo -> halvable hi ->
  between lo a hi -> between lo b hi -> between lo (damped1 a b) hi.
Proof.
  intros lo hi a b (Fl & Hl) (Fh & Hh) (La & Ua) (Lb & Ub).
  apply leb_true_inv in La, Ua, Lb, Ub.
  destruct La as (Nl & Na & La), Ua as (_ & Nh & Ua), Lb as (_ & Nb & Lb), Ub as (_ & _ & Ub).
  assert (Bl := key_bound lo Fl). assert (Bh := key_bound hi Fh). fold big in Bl, Bh.
  assert (Fa : isfin a = true) by (apply key_finite; auto; apply Rabs_lt; lra).
  assert (Fb : isfin b = true) by (apply key_finite; auto; apply Rabs_lt; lra).
  destruct (damped1_fin a b Fa Fb) as (Hn & Hk).
  destruct (half_fin lo Fl) as (_ & Kl). destruct (half_fin hi Fh) as (_ & Kh).
  rewrite Kl in Hl. rewrite Kh in Hh. split; apply leb_key; auto; rewrite Hk.
  - rewrite <- (sat_key lo Fl). apply sat_le. rewrite <- (rnd_key lo Fl) at 1. apply rnd_le.
    assert (rnd (key lo / 2) <= rnd (key a / 2)) by (apply rnd_le; lra).
    assert (rnd (key lo / 2) <= rnd (key b / 2)) by (apply rnd_le; lra). lra.
  - rewrite <- (sat_key hi Fh). apply sat_le. rewrite <- (rnd_key hi Fh). apply rnd_le.
    assert (rnd (key a / 2) <= rnd (key hi / 2)) by (apply rnd_le; lra).
    assert (rnd (key b / 2) <= rnd (key hi / 2)) by (apply rnd_le; lra). lra.
Qed.

(** Bounds that damping keeps: each is infinite or can be halved exactly, and they
    are not both infinite (the mean of opposite infinities is not a number). *)
Definition keepable (lo hi : f64) : Prop :=
  (halvable lo \/ lo = B754_infinity true) /\ (halvable hi \/ hi = B754_infinity false) /\
  (halvable lo \/ halvable hi).

Lemma sat_range a : - big <= sat a <= big.
Proof.
  pose proof big_pos; unfold sat; split; [apply Rmax_l|].
  apply Rmax_lub; [lra|apply Rmin_l].
Qed.

Lemma half_inf s : nmul (B754_infinity s : f64) half = B754_infinity s.
Proof. destruct s; apply B2SF_inj; vm_compute; reflexivity. Qed.

Lemma add_inf s (x : f64) : isfin x = true \/ x = B754_infinity s ->
  nadd (B754_infinity s : f64) x = B754_infinity s /\ nadd x (B754_infinity s : f64) = B754_infinity s.
Proof. intros [F| ->]; [destruct x as [[]|[]| |[]], s; try discriminate F|destruct s]; split; reflexivity. Qed.

Lemma damped1_inf s (a b : f64) : isfin a = true \/ a = B754_infinity s ->
  isfin b = true \/ b = B754_infinity s -> a = B754_infinity s \/ b = B754_infinity s ->
  damped1 a b = B754_infinity s.
Proof.
  unfold damped1; intros Ha Hb [-> | ->]; rewrite half_inf; apply add_inf.
  - destruct Hb as [F| ->]; [left; apply half_fin, F|right; apply half_inf].
  - destruct Ha as [F| ->]; [left; apply half_fin, F|right; apply half_inf].
Qed.

Lemma above_finite (lo a : f64) : isfin lo = true -> nleb lo a = true ->
  isfin a = true \/ a = B754_infinity false.
Proof.
  intros F H; apply leb_true_inv in H; destruct H as (_ & Na & H).
  destruct a as [|[]| |]; auto; try discriminate Na; exfalso.
  apply key_bound in F; fold big in F; cbn [key] in H; fold big in H; lra.
Qed.
Lemma below_finite (a hi : f64) : isfin hi = true -> nleb a hi = true ->
  isfin a = true \/ a = B754_infinity true.
Proof.
  intros F H; apply leb_true_inv in H; destruct H as (Na & _ & H).
  destruct a as [|[]| |]; auto; try discriminate Na; exfalso.
  apply key_bound in F; fold big in F; cbn [key] in H; fold big in H; lra.
Qed.

Lemma damped1_kept : forall lo hi a b : f64, keepable lo hi ->
  between lo a hi -> between lo b hi -> between lo (damped1 a b) hi.
Proof.
  intros lo hi a b ([Hl|Hl] & [Hh|Hh] & HH) Ba Bb.
  - exact (damped1_bounds lo hi a b Hl Hh Ba Bb).
  - subst hi; destruct Ba as [La _], Bb as [Lb _].
    destruct Hl as (Fl & Hl); assert (Ia := above_finite lo a Fl La); assert (Ib := above_finite lo b Fl Lb).
    assert (NL := fin_not_nan lo Fl).
    assert (K : between lo (B754_infinity false) (B754_infinity false)).
    { split; [|reflexivity]; apply leb_key; [exact NL|reflexivity|].
      apply key_bound in Fl; fold big in Fl; cbn [key]; fold big; lra. }
    destruct Ia as [Fa|Ia]; [destruct Ib as [Fb|Ib]|].
    + destruct (damped1_fin a b Fa Fb) as (Hn & Hk); split.
      * apply leb_true_inv in La, Lb; destruct La as (_ & _ & La), Lb as (_ & _ & Lb).
        destruct (half_fin lo Fl) as (_ & Kl); rewrite Kl in Hl.
        apply leb_key; auto; rewrite Hk.
        rewrite <- (sat_key lo Fl). apply sat_le. rewrite <- (rnd_key lo Fl) at 1. apply rnd_le.
        assert (rnd (key lo / 2) <= rnd (key a / 2)) by (apply rnd_le; lra).
        assert (rnd (key lo / 2) <= rnd (key b / 2)) by (apply rnd_le; lra). lra.
      * apply leb_key; [exact Hn|reflexivity|]; rewrite Hk; cbn [key]; fold big; apply sat_range.
    + rewrite (damped1_inf false a b); auto.
    + rewrite (damped1_inf false a b); auto.
  - subst lo; destruct Ba as [_ Ua], Bb as [_ Ub].
    destruct Hh as (Fh & Hh); assert (Ia := below_finite a hi Fh Ua); assert (Ib := below_finite b hi Fh Ub).
    assert (NH := fin_not_nan hi Fh).
    assert (K : between (B754_infinity true) (B754_infinity true) hi).
    { split; [reflexivity|]; apply leb_key; [reflexivity|exact NH|].
      apply key_bound in Fh; fold big in Fh; cbn [key]; fold big; lra. }
    destruct Ia as [Fa|Ia]; [destruct Ib as [Fb|Ib]|].
    + destruct (damped1_fin a b Fa Fb) as (Hn & Hk); split.
      * apply leb_key; [reflexivity|exact Hn|]; rewrite Hk; cbn [key]; fold big; apply sat_range.
      * apply leb_true_inv in Ua, Ub; destruct Ua as (_ & _ & Ua), Ub as (_ & _ & Ub).
        destruct (half_fin hi Fh) as (_ & Kh); rewrite Kh in Hh.
        apply leb_key; auto; rewrite Hk.
        rewrite <- (sat_key hi Fh). apply sat_le. rewrite <- (rnd_key hi Fh). apply rnd_le.
        assert (rnd (key a / 2) <= rnd (key hi / 2)) by (apply rnd_le; lra).
        assert (rnd (key b / 2) <= rnd (key hi / 2)) by (apply rnd_le; lra). lra.
    + rewrite (damped1_inf true a b); auto.
    + rewrite (damped1_inf true a b); auto.
  - subst lo hi; destruct HH as [[F _]|[F _]]; discriminate F.
Qed.

Lemma damped_guess_nth : forall cur prop d, damped_guess cur prop = Ret d ->
  forall i a b, nth_error cur i = Some a -> nth_error prop i = Some b ->
  nth_error d i = Some (damped1 a b).
Proof.
  unfold damped_guess, vadd. destruct factors as (-> & ->).
  intros cur prop d H. destruct (Nat.eqb _ _); [|discriminate H]. injection H as <-.
  unfold vadd_raw, vscale. revert prop.
  induction cur as [|a cur IH]; intros [|b prop] i x y Hx Hy; destruct i as [|i]; try discriminate.
  - injection Hx as ->. injection Hy as ->. reflexivity.
  - cbn [map map2 nth_error]. now apply IH.
Qed.

(** Statement as claimed, without the condition on halving. *)
Definition C39_unconditional : Prop :=
  forall cur prop d, damped_guess cur prop = Ret d ->
  forall i a b x, nth_error cur i = Some a -> nth_error prop i = Some b -> nth_error d i = Some x ->
  isfin a = true -> isfin b = true ->
  (nleb a b = true -> between a x b) /\ (nleb b a = true -> between b x a).

(** The smallest positive number is not kept by halving: from it to itself the
    damped point is 0. *)
Definition min_pos : f64 := @B754_finite 53 1024 false 1 (-1074) eq_refl.
Theorem C39_without_condition_refuted : ~ C39_unconditional.
Proof.
  intros H.
  assert (E : damped_guess [min_pos] [min_pos] = Ret [damped1 min_pos min_pos]).
  { unfold damped_guess. destruct factors as (-> & ->). reflexivity. }
  destruct (H _ _ _ E 0%nat min_pos min_pos (damped1 min_pos min_pos)) as ((Hc & _) & _);
    try reflexivity.
  assert (W : nleb min_pos (damped1 min_pos min_pos) = false) by (vm_compute; reflexivity).
  discriminate (eq_trans (eq_sym Hc) W).
Qed.
Print Assumptions C39_without_condition_refuted.

(** The damped point is componentwise between the current and the proposed one. *)
Theorem C39_between :
  forall cur prop d, damped_guess cur prop = Ret d ->
  forall i a b x, nth_error cur i = Some a -> nth_error prop i = Some b -> nth_error d i = Some x ->
  halvable a -> halvable b ->
  (nleb a b = true -> between a x b) /\ (nleb b a = true -> between b x a).
Proof.
  intros cur prop d H i a b x Ha Hb Hx Ca Cb.
  rewrite (damped_guess_nth _ _ _ H i a b Ha Hb) in Hx. injection Hx as <-.
  assert (Na := fin_not_nan a (proj1 Ca)). assert (Nb := fin_not_nan b (proj1 Cb)).
  assert (Ra := leb_refl a Na). assert (Rb := leb_refl b Nb).
  split; intros L; apply damped1_bounds; auto; split; auto.
Qed.
Print Assumptions C39_between.

(** Bounds satisfied by both points are kept as soon as the finite bounds
    themselves can be halved exactly. *)
Theorem C39_bounds_kept :
  forall cur prop d lo hi, damped_guess cur prop = Ret d ->
  forall i a b x, nth_error cur i = Some a -> nth_error prop i = Some b -> nth_error d i = Some x ->
  keepable lo hi -> between lo a hi -> between lo b hi -> between lo x hi.
Proof.
  intros cur prop d lo hi H i a b x Ha Hb Hx Cl Ba Bb.
  rewrite (damped_guess_nth _ _ _ H i a b Ha Hb) in Hx. injection Hx as <-.
  now apply damped1_kept.
Qed.
Print Assumptions C39_bounds_kept.

(** Zero and all numbers from 2^-1021 on can be halved. *)
Theorem C39_halvable :
  forall x : f64, isfin x = true -> key x = 0 \/ bpow radix2 (-1021) <= Rabs (key x) -> halvable x.
Proof.
  intros x Fx H. split; [exact Fx|]. destruct (half_fin x Fx) as (_ & ->).
  destruct H as [->|H]; [unfold Rdiv; rewrite Rmult_0_l, rnd_0; lra|].
  assert (E : rnd (key x / 2) = key x / 2); [|lra].
  unfold rnd. apply round_generic; auto with typeclass_instances.
  change (SpecFloat.fexp 53 1024) with (FLT_exp (-1074) 53).
  replace (key x / 2) with (key x * bpow radix2 (-1)) by (cbn; lra).
  apply mult_bpow_exact_FLT.
  - change (FLT_exp (-1074) 53) with (SpecFloat.fexp 53 1024). rewrite key_fin by exact Fx. apply generic_format_B2R.
  - assert (Hz : key x <> 0).
    { intros Z. rewrite Z, Rabs_R0 in H. pose proof (bpow_gt_0 radix2 (-1021)). lra. }
    assert (M := mag_ge_bpow radix2 (key x) (-1020)). change (-1020 - 1)%Z with (-1021)%Z in M.
    specialize (M H). lia.
Qed.
Print Assumptions C39_halvable.

Example C39_case :
  match damped_guess [Fz 1; Fz (-3)] [Fz 4; Fz (-9)] with
  | Ret [x; y] => neqb x (ndec 5 2) && neqb y (Fz (-6))
  | _ => false
  end = true.
Proof. vm_compute. reflexivity. Qed.

(** *** C19 with damping *)

Section Damped.
Context {IF : Inverter f64} {St EI EU : Type} (M : Model f64 St EI EU).
(** The model has a jacobian and returns the last point it was given. *)
Definition stores_point : Prop :=
  (forall s x, get_iteratives M (set_iteratives M s x) = x) /\
  (forall s s' r, evaluate M s = Ret (s', r) -> get_iteratives M s' = get_iteratives M s) /\
  (forall s s' r, get_jacobian M s = Ret (s', r) -> get_iteratives M s' = get_iteratives M s).
Context (Hjac : forall s, jacobian_provided M s = true) (Hst : stores_point).

Definition bounds_halvable (ps : list (iterative_params f64)) : Prop :=
  Forall (fun p => keepable (min_value p) (max_value p)) ps.

Lemma damped_box : forall ps cur prop d, bounds_halvable ps -> in_box ps cur -> in_box ps prop ->
  damped_guess cur prop = Ret d -> in_box ps d.
Proof.
  intros ps cur prop d Hh Hc Hp Hd i p x Hi Hx.
  assert (Hl : length cur = length prop /\ length d = length cur).
  { unfold damped_guess, vadd, vscale in Hd. rewrite !map_length in Hd.
    destruct (Nat.eqb (length cur) (length prop)) eqn:E; [|discriminate Hd].
    apply Nat.eqb_eq in E. injection Hd as <-. split; [exact E|].
    unfold vadd_raw. rewrite PropsIteration.length_map2; now rewrite !map_length. }
  destruct Hl as (L1 & L2).
  assert (Hlt : (i < length d)%nat) by (apply nth_error_Some; congruence).
  destruct (nth_error cur i) as [a|] eqn:Ea; [|apply nth_error_None in Ea; lia].
  destruct (nth_error prop i) as [b|] eqn:Eb; [|apply nth_error_None in Eb; lia].
  unfold bounds_halvable in Hh. rewrite Forall_forall in Hh.
  specialize (Hh p (nth_error_In _ _ Hi)).
  eapply C39_bounds_kept; eauto.
Qed.

Lemma stores_eval : forall s x s' r, evaluate M (set_iteratives M s x) = Ret (s', r) -> get_iteratives M s' = x.
Proof. intros s x s' r H. destruct Hst as (H1 & H2 & _). rewrite (H2 _ _ _ H). apply H1. Qed.

Lemma damped_iteration : forall rf s t rf' p' r ps,
  limits_of (rf_iters_params rf) ps -> ordered ps -> bounds_halvable ps ->
  Forall (in_box ps) (points t) -> in_box ps (get_iteratives M s) ->
  iteration (traced M) rf (s, t) = Ret (rf', p', r) ->
  Forall (in_box ps) (points (snd p')) /\
  (forall e, r = Ok e -> in_box ps (get_iteratives M (fst p'))).
Proof.
  intros rf s t rf' p' r ps Hl Ho Hh Ht Hs H. apply iteration_inv in H.
  destruct H as (rf1 & p1 & r1 & Hc & H). assert (Hc' := Hc).
  apply (analytic_compute_step M Hjac) in Hc'. destruct Hc' as (s1 & b & -> & Hb & Hsame).
  assert (Hs1 : in_box ps (get_iteratives M s1)).
  { destruct Hsame as [->|(q & Hq)]; [exact Hs|]. destruct Hst as (_ & _ & H3). rewrite (H3 _ _ _ Hq). exact Hs. }
  assert (Htb : Forall (in_box ps) (points (t ++ b))) by (rewrite points_app, Hb, app_nil_r; exact Ht).
  destruct r1 as [g|e].
  - apply compute_step_inv in Hc. destruct Hc as (Hj & Hg). specialize (Hg g eq_refl).
    apply same_but_jac_fields in Hj. destruct Hj as ((Hp & _ & Hi & _) & _). cbn in Hp, Hi.
    assert (Hbox : in_box ps g).
    { unfold compute_next_from_inv_jac in Hg. minv1 Hg. minv1 Hg. minv1 Hg. minv1 Hg.
      rewrite Hi in Hg. eapply step_limitations_box; eauto. }
    apply update_model_inv in H. destruct H as (e0 & p2 & r2 & _ & Hev & H).
    apply traced_set_eval_inv in Hev. destruct Hev as (s2 & Hev & ->).
    assert (Hg2 := stores_eval _ _ _ _ Hev).
    assert (Ht2 : Forall (in_box ps) (points ((t ++ b) ++ [ESet g; EEval (status_of r2)]))).
    { rewrite points_app. apply Forall_app. split; [exact Htb|]. constructor; [exact Hbox|constructor]. }
    destruct H as [(x & _ & _ & -> & ->)|(en & -> & _ & Hf)].
    + split; [exact Ht2|discriminate].
    + apply finish_update_full in Hf. destruct Hf as (e1 & _ & Hf & _).
      destruct (_ && _ && _).
      * destruct Hf as (d & u & Hd & Hde & _). apply traced_set_eval_inv in Hde.
        destruct Hde as (s3 & Hde & ->).
        assert (Hdb : in_box ps d).
        { eapply damped_box; [exact Hh| |exact Hbox|exact Hd]. exact Hs1. }
        cbn [fst snd]. split.
        -- rewrite points_app. apply Forall_app. split; [exact Ht2|]. constructor; [exact Hdb|constructor].
        -- intros _ _. rewrite (stores_eval _ _ _ _ Hde). exact Hdb.
      * destruct Hf as (-> & _). cbn [fst snd]. split; [exact Ht2|]. intros _ _. rewrite Hg2. exact Hbox.
  - destruct H as (_ & -> & ->). split; [exact Htb|discriminate].
Qed.

Lemma damped_heads : forall rf0 s0 rf p me ps,
  limits_of (rf_iters_params rf0) ps -> ordered ps -> bounds_halvable ps ->
  in_box ps (rf_initial_guess rf0) ->
  loop_head (traced M) rf0 (s0, []) rf p me ->
  Forall (in_box ps) (points (snd p)) /\ in_box ps (get_iteratives M (fst p)).
Proof.
  intros rf0 s0 rf p me ps Hl Ho Hh Hg H.
  induction H as [p r e rf Hev Hnu He Hdb|rf p me rf1 p1 e Hhd IH Hc Hit].
  - apply traced_set_eval_inv in Hev. destruct Hev as (s1 & Hev & ->). cbn [fst snd].
    split; [constructor; [exact Hg|constructor]|]. rewrite (stores_eval _ _ _ _ Hev). exact Hg.
  - apply loop_head_config in Hhd. destruct Hhd as (_ & _ & Hi & _).
    destruct p as [s t]. destruct IH as (IH1 & IH2).
    destruct (damped_iteration rf s t rf1 p1 (Ok e) ps) as (H1 & H2); auto.
    + rewrite Hi. exact Hl.
    + split; [exact H1|]. apply (H2 e eq_refl).
Qed.
End Damped.

(** With damping as well, all points given to a model with a jacobian stay in a
    box whose bounds can be halved exactly. *)
Theorem C19_inside_with_damping :
  forall (IF : Inverter f64) St EI EU (M : Model f64 St EI EU) rf ps s rf' s' t r,
  (forall s, jacobian_provided M s = true) -> stores_point M ->
  limits_of (rf_iters_params rf) ps -> ordered ps -> bounds_halvable ps ->
  in_box ps (rf_initial_guess rf) ->
  solve (traced M) rf (s, []) = Ret (rf', (s', t), r) ->
  Forall (in_box ps) (points t).
Proof.
  intros IF St EI EU M rf ps s rf' s' t r Hj Hst Hl Ho Hh Hg H.
  destruct (solve_heads _ _ _ _ _ _ H)
    as [(x & _ & _ & Hev)|[(me & Hhd & _)|(rf1 & p1 & me & x & Hhd & _ & Hit & _)]].
  - apply traced_set_eval_inv in Hev. destruct Hev as (s1 & _ & Hp). injection Hp as _ ->. cbn.
    constructor; [exact Hg|constructor].
  - apply (damped_heads M Hj Hst rf s rf' (s', t) me ps Hl Ho Hh Hg Hhd).
  - destruct (damped_heads M Hj Hst rf s rf1 p1 me ps Hl Ho Hh Hg Hhd) as (H1 & H2).
    apply loop_head_config in Hhd. destruct Hhd as (_ & _ & Hi & _). destruct p1 as [s1 t1].
    apply (damped_iteration M Hj Hst rf1 s1 t1 rf' (s', t) (Err x) ps); auto. rewrite Hi. exact Hl.
Qed.
Print Assumptions C19_inside_with_damping.

(** A damped run of [x^2 = 2] from 1/8 in the box [0; 8]. *)
Example C19_damped_case :
  stores_point (model_from_function_and_jacobian sq2 sq2_jac) /\
  check_run (solve (traced (model_from_function_and_jacobian sq2 sq2_jac))
      (sample_rf (params6 1 50 NewtonRaphson true) [ndec 1 8]
        [iterative_of_params (mkIterativeParams ninf ninf (Fz 0) (Fz 8))] (abs_conf 1))
      (user_model_new 1, []))
    (fun rf p r => is_ok r &&
       match points (snd p) with
       | _ :: [a] :: [b] :: _ => neqb a (Fz 8) && neqb b (ndec 65 16)
       | _ => false
       end) = true.
Proof.
  split; [|vm_compute; reflexivity].
  split; [reflexivity|]. split.
  - intros s s' r H. injection H as <- _. reflexivity.
  - intros s s' r H. cbn [get_jacobian model_from_function_and_jacobian] in H. unfold um_get_jacobian in H.
    minv1 H. injection H as <- _. reflexivity.
Qed.

(** *** C42 *)

Lemma rnd_zero_iff : forall r, rnd r = 0 -> Rabs r <= bpow radix2 (-1075).
Proof.
  intros r H.
  assert (E := error_le_half_ulp_round radix2 (SpecFloat.fexp 53 1024) (fun z => negb (Z.even z)) r).
  change (round radix2 (SpecFloat.fexp 53 1024) (Znearest (fun z => negb (Z.even z))) r) with (rnd r) in E.
  rewrite H in E. change (SpecFloat.fexp 53 1024) with (FLT_exp (-1074) 53) in E.
  rewrite ulp_FLT_0 in E by reflexivity. rewrite Rminus_0_l, Rabs_Ropp in E.
  replace (bpow radix2 (-1075)) with (/ 2 * bpow radix2 (-1074)); [exact E|].
  change (/ 2) with (bpow radix2 (-1)). now rewrite <- bpow_plus.
Qed.

Lemma format64 : forall x : f64, isfin x = true -> generic_format radix2 (FLT_exp (-1074) 53) (key x).
Proof. intros x H. rewrite key_fin by exact H. apply (generic_format_B2R 53 1024 x). Qed.

(** Two different numbers are not too close. *)
Lemma gap_pos : forall x y, generic_format radix2 (FLT_exp (-1074) 53) x ->
  generic_format radix2 (FLT_exp (-1074) 53) y -> 0 < y -> y < x ->
  bpow radix2 (-54) * x <= x - y.
Proof.
  intros x y Fx Fy Hy H.
  assert (Hs : succ radix2 (FLT_exp (-1074) 53) y <= x).
  { apply succ_le_lt; auto with typeclass_instances. }
  rewrite succ_eq_pos in Hs by lra.
  assert (Hu := ulp_FLT_gt radix2 (-1074) 53 y). rewrite Rabs_pos_eq in Hu by lra.
  change (bpow radix2 (- (53))) with (2 * bpow radix2 (-54)) in Hu || idtac.
  assert (E : bpow radix2 (-53) = 2 * bpow radix2 (-54)).
  { change 2 with (bpow radix2 1). now rewrite <- bpow_plus. }
  change (- (53))%Z with (-53)%Z in Hu. rewrite E in Hu.
  assert (P : 0 < bpow radix2 (-54)) by apply bpow_gt_0.
  assert (P1 : bpow radix2 (-54) <= / 2).
  { change (/ 2) with (bpow radix2 (-1)). apply bpow_le. lia. }
  destruct (Rle_or_lt (x / 2) y); nra.
Qed.

Lemma gap_any : forall x y, generic_format radix2 (FLT_exp (-1074) 53) x ->
  generic_format radix2 (FLT_exp (-1074) 53) y -> x <> y -> Rabs y <= Rabs x ->
  bpow radix2 (-54) * Rabs x <= Rabs (x - y).
Proof.
  intros x y Fx Fy Hne H.
  assert (P1 : bpow radix2 (-54) <= 1).
  { change 1 with (bpow radix2 0). apply bpow_le. lia. }
  assert (P : 0 < bpow radix2 (-54)) by apply bpow_gt_0.
  assert (Hpos : forall x y, generic_format radix2 (FLT_exp (-1074) 53) x ->
    generic_format radix2 (FLT_exp (-1074) 53) y -> x <> y -> Rabs y <= x ->
    bpow radix2 (-54) * x <= x - y).
  { clear x y Fx Fy Hne H. intros x y Fx Fy Hne H. assert (H0 := Rabs_pos y).
    destruct (Rle_or_lt y 0) as [L|L].
    - nra.
    - rewrite Rabs_pos_eq in H by lra. apply gap_pos; auto. lra. }
  destruct (Rle_or_lt 0 x) as [Lx|Lx].
  - rewrite (Rabs_pos_eq x Lx) in *. assert (Hp := Hpos x y Fx Fy Hne H).
    rewrite Rabs_pos_eq; [exact Hp|]. nra.
  - rewrite (Rabs_left x Lx) in *.
    assert (Hp := Hpos (- x) (- y)). rewrite Rabs_Ropp in Hp.
    specialize (Hp (generic_format_opp _ _ _ Fx) (generic_format_opp _ _ _ Fy)).
    specialize (Hp ltac:(lra) H). rewrite <- Rabs_Ropp, Rabs_pos_eq; nra.
Qed.

Definition largest (x y : R) : R := Rmax (Rabs x) (Rabs y).

Lemma gap : forall x y : f64, isfin x = true -> isfin y = true -> key x <> key y ->
  bpow radix2 (-54) * largest (key x) (key y) <= Rabs (key x - key y).
Proof.
  intros x y Fx Fy H. unfold largest, Rmax.
  destruct (Rle_dec (Rabs (key x)) (Rabs (key y))) as [L|L].
  - rewrite Rabs_minus_sym. apply gap_any; auto using format64.
  - apply gap_any; auto using format64. lra.
Qed.

Lemma diff_nonzero : forall x y : f64, isfin x = true -> isfin y = true -> key x <> key y ->
  rnd (key x - key y) <> 0.
Proof.
  intros x y Fx Fy H. unfold rnd, Rminus. change (SpecFloat.fexp 53 1024) with (FLT_exp (-1074) 53).
  apply round_plus_neq_0; auto with typeclass_instances.
  - apply format64, Fx.
  - apply generic_format_opp, format64, Fy.
  - lra.
Qed.

(** The smallest positive magnitude. *)
Lemma fin_ge_min : forall r, rnd r <> 0 -> bpow radix2 (-1074) <= Rabs (rnd r).
Proof.
  intros r H.
  assert (F : generic_format radix2 (FLT_exp (-1074) 53) (rnd r)).
  { apply generic_format_round; auto with typeclass_instances. }
  apply generic_format_ge_bpow with (fexp := FLT_exp (-1074) 53); auto.
  - intros e. unfold FLT_exp. lia.
  - now apply Rabs_pos_lt.
  - now apply generic_format_abs.
Qed.

Lemma rnd_scaled : forall (m : R) k, generic_format radix2 (FLT_exp (-1074) 53) m ->
  bpow radix2 (-1021 - k) <= m -> (k <= 0)%Z -> rnd (bpow radix2 k * m) = bpow radix2 k * m.
Proof.
  intros m k F H Hk. unfold rnd. apply round_generic; auto with typeclass_instances.
  rewrite Rmult_comm. apply mult_bpow_exact_FLT; [exact F|].
  assert (M := mag_ge_bpow radix2 m (-1020 - k)). replace (-1020 - k - 1)%Z with (-1021 - k)%Z in M by lia.
  rewrite Rabs_pos_eq in M by (eapply Rle_trans; [apply bpow_ge_0|exact H]). specialize (M H). unfold SpecFloat.emin. lia.
Qed.

Lemma largest_format : forall x y : f64, isfin x = true -> isfin y = true ->
  generic_format radix2 (FLT_exp (-1074) 53) (largest (key x) (key y)).
Proof.
  intros x y Fx Fy. unfold largest, Rmax.
  destruct (Rle_dec _ _); apply generic_format_abs; now apply format64.
Qed.

(** Lower bound on the rounded difference. *)
Lemma diff_bound : forall x y : f64, isfin x = true -> isfin y = true -> key x <> key y ->
  bpow radix2 (-900) <= largest (key x) (key y) ->
  bpow radix2 (-54) * largest (key x) (key y) <= Rabs (rnd (key x - key y)).
Proof.
  intros x y Fx Fy H L. rewrite rnd_abs.
  rewrite <- rnd_scaled with (k := (-54)%Z); [apply rnd_le, gap; auto| | |lia].
  - now apply largest_format.
  - eapply Rle_trans; [|exact L]. apply bpow_le. lia.
Qed.

Lemma twice_format : forall m, generic_format radix2 (FLT_exp (-1074) 53) m ->
  generic_format radix2 (FLT_exp (-1074) 53) (2 * m).
Proof.
  intros m F. rewrite Rmult_comm. change 2 with (bpow radix2 1).
  apply mult_bpow_pos_exact_FLT; [exact F|lia].
Qed.
Lemma rnd_format : forall m, generic_format radix2 (FLT_exp (-1074) 53) m -> rnd m = m.
Proof. intros m F. unfold rnd. apply round_generic; auto with typeclass_instances. Qed.

Lemma two_fin : isfin (n2 : f64) = true. Proof. vm_compute. reflexivity. Qed.
Lemma one_fin : isfin (n1 : f64) = true. Proof. vm_compute. reflexivity. Qed.

(** Half of the absolute sum: at most the largest magnitude. *)
Lemma half_sum : forall x y : f64, isfin x = true -> isfin y = true -> isfin (nadd x y) = true ->
  let h := ndiv (nabs (nadd x y)) n2 in
  isfin h = true /\ key h = rnd (Rabs (rnd (key x + key y)) / 2) /\
  0 <= key h <= largest (key x) (key y) /\ key h <= bpow radix2 1023.
Proof.
  intros x y Fx Fy Fs h.
  destruct (add_fin x y Fx Fy) as (Ns & Ks).
  assert (Hb : Rabs (rnd (key x + key y)) < big).
  { apply Rnot_le_lt. intros Hc. assert (Kb := key_bound _ Fs). fold big in Kb. rewrite Ks in Kb.
    unfold Rabs in Hc. destruct (Rcase_abs _); [rewrite sat_nbig in Kb by lra|rewrite sat_big in Kb by lra]; lra. }
  rewrite sat_id in Ks by lra.
  assert (Fa : isfin (nabs (nadd x y)) = true) by (rewrite abs_fin; exact Fs).
  assert (H2 : key (n2 : f64) <> 0) by (rewrite key_n2; lra).
  destruct (div_fin (nabs (nadd x y)) n2 Fa two_fin H2) as (Nh & Kh).
  rewrite key_n2, key_abs, Ks in Kh. fold h in Nh, Kh.
  assert (P := Rabs_pos (rnd (key x + key y))).
  assert (P0 : 0 <= rnd (Rabs (rnd (key x + key y)) / 2)) by (apply rnd_ge0; lra).
  assert (U : rnd (Rabs (rnd (key x + key y)) / 2) <= bpow radix2 1023).
  { rewrite <- (rnd_format (bpow radix2 1023)).
    - apply rnd_le. assert (E : big = 2 * bpow radix2 1023).
      { unfold big. change 2 with (bpow radix2 1). now rewrite <- bpow_plus. }
      lra.
    - apply generic_format_bpow. unfold FLT_exp. lia. }
  assert (Hlt : bpow radix2 1023 < big) by (apply bpow_lt; lia).
  rewrite sat_id in Kh by (rewrite Rabs_pos_eq; lra).
  split; [apply key_finite; [exact Nh|]; rewrite Kh, Rabs_pos_eq; lra|].
  split; [exact Kh|]. rewrite Kh. split; [split; [exact P0|]|exact U].
  rewrite <- (rnd_format (largest (key x) (key y))) by (now apply largest_format).
  apply rnd_le. rewrite rnd_abs.
  assert (Q : rnd (Rabs (key x + key y)) <= 2 * largest (key x) (key y)); [|lra].
  rewrite <- (rnd_format (2 * largest (key x) (key y))) by (apply twice_format; now apply largest_format).
  apply rnd_le. eapply Rle_trans; [apply Rabs_triang|]. unfold largest.
  assert (M1 := Rmax_l (Rabs (key x)) (Rabs (key y))). assert (M2 := Rmax_r (Rabs (key x)) (Rabs (key y))). lra.
Qed.

Lemma sat_nonzero : forall r, r <> 0 -> sat r <> 0.
Proof.
  intros r H. pose proof big_pos. unfold sat, Rmax, Rmin.
  repeat match goal with |- context [Rle_dec ?a ?b] => destruct (Rle_dec a b) end; lra.
Qed.

(** A quotient of numbers that is not tiny is not zero. *)
Lemma quotient_nonzero : forall d s : f64, isfin d = true -> isfin s = true -> key s <> 0 ->
  bpow radix2 (-1075) * Rabs (key s) < Rabs (key d) -> key (ndiv d s) <> 0.
Proof.
  intros d s Fd Fs Hs H. destruct (div_fin d s Fd Fs Hs) as (_ & ->).
  assert (Hq : bpow radix2 (-1075) < Rabs (key d / key s)).
  { unfold Rdiv. rewrite Rabs_mult, Rabs_inv. apply Rmult_lt_reg_r with (Rabs (key s)); [now apply Rabs_pos_lt|].
    rewrite Rmult_assoc, Rinv_l by (now apply Rabs_no_R0). lra. }
  assert (Hr : rnd (key d / key s) <> 0).
  { intros Z. apply rnd_zero_iff in Z. lra. }
  now apply sat_nonzero.
Qed.

Lemma sub_finite : forall x y : f64, isfin x = true -> isfin y = true -> isfin (nsub x y) = true ->
  key (nsub x y) = rnd (key x - key y).
Proof.
  intros x y Fx Fy Fs. destruct (sub_fin x y Fx Fy) as (_ & Ks).
  rewrite Ks. apply sat_id. apply Rnot_lt_le. intros Hc.
  assert (Kb := key_bound _ Fs). fold big in Kb. rewrite Ks in Kb.
  unfold Rabs in Hc. destruct (Rcase_abs _); [rewrite sat_nbig in Kb by lra|rewrite sat_big in Kb by lra]; lra.
Qed.

(** Absolute residuals: zero exactly on solutions, even when the difference
    overflows. *)
Theorem C42_abs :
  forall x y : f64, isfin x = true -> isfin y = true ->
  (neqb (normalization x y Abs) n0 = true <-> neqb x y = true).
Proof.
  intros x y Fx Fy. cbn [normalization]. destruct (sub_fin x y Fx Fy) as (Ns & Ks).
  rewrite (eqb_key (nsub x y) (n0 : f64) Ns nan_n0), (eqb_key x y) by (now apply fin_not_nan).
  rewrite key_n0, Ks. split; intros H.
  - destruct (Req_dec (key x) (key y)) as [E|E]; [exact E|exfalso].
    assert (Hr := diff_nonzero x y Fx Fy E).
    apply (sat_nonzero _ Hr H).
  - rewrite H, (Rminus_diag_eq (key y) (key y) eq_refl), rnd_0. apply sat_id. rewrite Rabs_R0. left. apply big_pos.
Qed.
Print Assumptions C42_abs.

Lemma rnd_1_5 : rnd (3 / 2) = 3 / 2.
Proof.
  apply rnd_format. replace (3 / 2) with (F2R (Float radix2 3 (-1))) by (unfold F2R; cbn; lra).
  apply generic_format_F2R. intros _. unfold cexp. rewrite mag_F2R_Zdigits by lia.
  unfold FLT_exp. cbn. lia.
Qed.

(** Adaptive residuals: zero exactly on solutions; the quotient cannot underflow. *)
Theorem C42_adapt :
  forall x y : f64, isfin x = true -> isfin y = true ->
  isfin (nadd x y) = true -> isfin (nsub x y) = true ->
  (neqb (normalization x y Adapt) n0 = true <-> neqb x y = true).
Proof.
  intros x y Fx Fy Fs Fd. cbn [normalization].
  destruct (half_sum x y Fx Fy Fs) as (Fh & _ & (Ph & Uh) & Bh).
  set (h := ndiv (nabs (nadd x y)) n2) in *.
  destruct (add_fin n1 h one_fin Fh) as (Nt & Kt). rewrite key_n1 in Kt.
  assert (B1 : 1 + bpow radix2 1023 <= 3 * bpow radix2 1022).
  { assert (E : bpow radix2 1023 = 2 * bpow radix2 1022).
    { change 2 with (bpow radix2 1). now rewrite <- bpow_plus. }
    assert (1 <= bpow radix2 1022) by (change 1 with (bpow radix2 0); apply bpow_le; lia). lra. }
  assert (B2 : 3 * bpow radix2 1022 < big).
  { assert (E : big = 4 * bpow radix2 1022).
    { unfold big. change 4 with (bpow radix2 2). now rewrite <- bpow_plus. }
    assert (0 < bpow radix2 1022) by apply bpow_gt_0. lra. }
  assert (R3 : rnd (3 * bpow radix2 1022) = 3 * bpow radix2 1022).
  { apply rnd_format. change (3 * bpow radix2 1022) with (F2R (Float radix2 3 1022)).
    apply generic_format_F2R. intros _. unfold cexp. rewrite mag_F2R_Zdigits by lia.
    unfold FLT_exp. cbn. lia. }
  assert (U3 : rnd (1 + key h) <= 3 * bpow radix2 1022).
  { rewrite <- R3. apply rnd_le. lra. }
  assert (L1 : 1 <= rnd (1 + key h)).
  { rewrite <- (rnd_format 1) at 1; [apply rnd_le; lra|]. change 1 with (bpow radix2 0).
    apply generic_format_bpow. unfold FLT_exp. lia. }
  rewrite sat_id in Kt by (rewrite Rabs_pos_eq; lra).
  assert (Ft : isfin (nadd n1 h) = true).
  { apply key_finite; [exact Nt|]. rewrite Kt, Rabs_pos_eq; lra. }
  assert (Hnz : key (nadd n1 h) <> 0) by (rewrite Kt; lra).
  destruct (div_fin (nsub x y) (nadd n1 h) Fd Ft Hnz) as (Nq & Kq).
  rewrite (eqb_key _ (n0 : f64) Nq nan_n0), (eqb_key x y) by (now apply fin_not_nan). rewrite key_n0.
  assert (Kd := sub_finite x y Fx Fy Fd).
  split; intros H.
  - destruct (Req_dec (key x) (key y)) as [E|E]; [exact E|exfalso].
    revert H. apply quotient_nonzero; auto. rewrite Kt, Kd, (Rabs_pos_eq (rnd (1 + key h))) by lra.
    set (M := largest (key x) (key y)) in *.
    destruct (Rle_or_lt (bpow radix2 (-60)) M) as [L|L].
    + assert (D := diff_bound x y Fx Fy E). fold M in D.
      assert (HM : bpow radix2 (-900) <= M).
      { eapply Rle_trans; [|exact L]. apply bpow_le. lia. }
      specialize (D HM). eapply Rlt_le_trans; [|exact D].
      assert (S2 : rnd (1 + key h) <= 2 * Rmax 1 M).
      { rewrite <- (rnd_format (2 * Rmax 1 M)).
        - apply rnd_le. assert (M1 := Rmax_l 1 M). assert (M2 := Rmax_r 1 M). lra.
        - apply twice_format. unfold Rmax. destruct (Rle_dec 1 M).
          + now apply largest_format.
          + change 1 with (bpow radix2 0). apply generic_format_bpow. unfold FLT_exp. lia. }
      assert (E1 : bpow radix2 (-1075) * (2 * Rmax 1 M) < bpow radix2 (-54) * M).
      { assert (P1 : 0 < bpow radix2 (-1075)) by apply bpow_gt_0.
        assert (P2 : 4 * bpow radix2 (-1075) <= bpow radix2 (-114)).
        { change 4 with (bpow radix2 2). rewrite <- bpow_plus. apply bpow_le. lia. }
        assert (P3 : bpow radix2 (-114) = bpow radix2 (-54) * bpow radix2 (-60)) by (now rewrite <- bpow_plus).
        assert (P4 : 0 < bpow radix2 (-60)) by apply bpow_gt_0.
        assert (P5 : bpow radix2 (-60) <= 1) by (change 1 with (bpow radix2 0); apply bpow_le; lia).
        assert (P6 : 0 < bpow radix2 (-54)) by apply bpow_gt_0.
        rewrite P3 in P2. clear - P1 P2 P4 P5 P6 L.
        generalize dependent (bpow radix2 (-1075)). generalize dependent (bpow radix2 (-54)).
        generalize dependent (bpow radix2 (-60)). intros r L P4 P5 q P6 p P1 P2.
        assert (Q1 : q * r <= q * 1) by (apply Rmult_le_compat_l; lra).
        assert (Q2 : q * r <= q * M) by (apply Rmult_le_compat_l; lra).
        unfold Rmax. destruct (Rle_dec 1 M) as [HM1|HM1]; [|lra].
        assert (Q3 : (2 * p) * M < q * M) by (apply Rmult_lt_compat_r; lra). lra. }
      eapply Rle_lt_trans; [|exact E1]. apply Rmult_le_compat_l; [apply bpow_ge_0|exact S2].
    + assert (D := fin_ge_min (key x - key y) (diff_nonzero x y Fx Fy E)).
      eapply Rlt_le_trans; [|exact D].
      assert (S2 : rnd (1 + key h) <= 3 / 2).
      { rewrite <- rnd_1_5. apply rnd_le.
        assert (HB : bpow radix2 (-60) <= / 2) by (change (/ 2) with (bpow radix2 (-1)); apply bpow_le; lia).
        clear - HB L Uh. lra. }
      assert (E2 : bpow radix2 (-1074) = 2 * bpow radix2 (-1075)).
      { change 2 with (bpow radix2 1). now rewrite <- bpow_plus. }
      assert (P1 : 0 < bpow radix2 (-1075)) by apply bpow_gt_0. rewrite E2.
      apply Rle_lt_trans with (bpow radix2 (-1075) * (3 / 2)); [apply Rmult_le_compat_l; lra|lra].
  - rewrite Kq, Kd, H, (Rminus_diag_eq (key y) (key y) eq_refl), rnd_0. unfold Rdiv. rewrite Rmult_0_l, rnd_0.
    apply sat_id. rewrite Rabs_R0. left. apply big_pos.
Qed.
Print Assumptions C42_adapt.

(** Relative residuals: zero exactly on non-zero solutions. *)
Theorem C42_rel :
  forall x y : f64, isfin x = true -> isfin y = true ->
  isfin (nadd x y) = true -> isfin (nsub x y) = true ->
  (neqb (normalization x y Rel) n0 = true <-> neqb x y = true /\ neqb x n0 = false).
Proof.
  intros x y Fx Fy Fs Fd. cbn [normalization].
  destruct (half_sum x y Fx Fy Fs) as (Fh & Kh & (Ph & Uh) & Bh).
  set (h := ndiv (nabs (nadd x y)) n2) in *.
  assert (Nx := fin_not_nan x Fx). assert (Ny := fin_not_nan y Fy).
  assert (Kd := sub_finite x y Fx Fy Fd).
  assert (Hx0 : neqb x n0 = false <-> key x <> 0).
  { destruct (neqb x n0) eqn:E.
    - apply (eqb_key x (n0 : f64) Nx nan_n0) in E. rewrite key_n0 in E. split; [discriminate|contradiction].
    - split; [|reflexivity]. intros _ Hc. rewrite <- key_n0 in Hc.
      apply (eqb_key x (n0 : f64) Nx nan_n0) in Hc. discriminate (eq_trans (eq_sym Hc) E). }
  rewrite (eqb_key x y Nx Ny), Hx0.
  destruct (Req_dec (key x) (key y)) as [E|E].
  - (* equal values: the half sum is |x| *)
    assert (Kx : key h = Rabs (key x)).
    { rewrite Kh, <- E. replace (key x + key x) with (2 * key x) by ring.
      rewrite (rnd_format (2 * key x)) by (apply twice_format, format64, Fx).
      rewrite Rabs_mult, (Rabs_pos_eq 2) by lra. replace (2 * Rabs (key x) / 2) with (Rabs (key x)) by field.
      rewrite rnd_format; [reflexivity|]. apply generic_format_abs, format64, Fx. }
    destruct (Req_dec (key x) 0) as [Z|Z].
    + split; [|intros (_ & Hc); contradiction]. intros H. exfalso.
      assert (Kz : key (nsub x y) = 0) by (rewrite Kd, E, (Rminus_diag_eq (key y) (key y) eq_refl); apply rnd_0).
      rewrite Z, Rabs_R0 in Kx.
      assert (Hn : isnan (ndiv (nsub x y) h) = true).
      { assert (Az : forall a : f64, isfin a = true -> key a = 0 -> exists s, a = B754_zero s).
        { intros a Fa Ka. destruct a as [s| | |s m e He]; try discriminate; [eauto|exfalso].
          cbn [key B2R] in Ka. apply eq_0_F2R in Ka. destruct s; discriminate Ka. }
        destruct (Az _ Fd Kz) as (s1 & ->). destruct (Az _ Fh Kx) as (s2 & ->). reflexivity. }
      assert (Hf : neqb (ndiv (nsub x y) h) n0 = false) by (apply eqb_nan; auto).
      discriminate (eq_trans (eq_sym H) Hf).
    + split; [intros _; auto|]. intros _.
      assert (Hnz : key h <> 0) by (rewrite Kx; now apply Rabs_no_R0).
      destruct (div_fin (nsub x y) h Fd Fh Hnz) as (Nq & Kq).
      apply (eqb_key _ (n0 : f64) Nq nan_n0). rewrite key_n0, Kq, Kd, E, (Rminus_diag_eq (key y) (key y) eq_refl), rnd_0.
      unfold Rdiv. rewrite Rmult_0_l, rnd_0. apply sat_id. rewrite Rabs_R0. left. apply big_pos.
  - split; [|intros (Hc & _); contradiction]. intros H. exfalso.
    assert (Hdz := diff_nonzero x y Fx Fy E). rewrite <- Kd in Hdz.
    destruct (Req_dec (key h) 0) as [Z|Z].
    + (* division by zero *)
      assert (Hq : neqb (ndiv (nsub x y) h) n0 = false).
      { clear - Fd Hdz Z Fh Ph. destruct h as [s2| | |s2 m2 e2 He2]; try discriminate.
        - destruct (nsub x y) as [s1| | |s1 m1 e1 He1]; try discriminate; [cbn [key B2R] in Hdz; lra|].
          destruct s1, s2; reflexivity.
        - exfalso. cbn [key B2R] in Z. apply eq_0_F2R in Z. destruct s2; discriminate Z. }
      discriminate (eq_trans (eq_sym H) Hq).
    + destruct (div_fin (nsub x y) h Fd Fh Z) as (Nq & _).
      apply (eqb_key _ (n0 : f64) Nq nan_n0) in H. rewrite key_n0 in H. revert H.
      apply quotient_nonzero; auto. rewrite (Rabs_pos_eq (key h)) by exact Ph. rewrite Kd.
      set (M := largest (key x) (key y)) in *.
      assert (P1 : 0 < bpow radix2 (-1075)) by apply bpow_gt_0.
      destruct (Rle_or_lt (bpow radix2 (-900)) M) as [L|L].
      * assert (D := diff_bound x y Fx Fy E L). fold M in D. eapply Rlt_le_trans; [|exact D].
        assert (PM : 0 < M) by (eapply Rlt_le_trans; [apply bpow_gt_0|exact L]).
        assert (P2 : bpow radix2 (-1075) < bpow radix2 (-54)) by (apply bpow_lt; lia). nra.
      * assert (D := fin_ge_min (key x - key y)). rewrite <- Kd in D. specialize (D Hdz). rewrite <- Kd.
        eapply Rlt_le_trans; [|exact D].
        assert (P2 : bpow radix2 (-900) <= 1) by (change 1 with (bpow radix2 0); apply bpow_le; lia).
        assert (P3 : bpow radix2 (-1075) < bpow radix2 (-1074)) by (apply bpow_lt; lia). nra.
Qed.
Print Assumptions C42_rel.

(** In particular the relative residual of a solution at zero is not a number. *)
Theorem C42_rel_zero :
  forall s1 s2, isnan (normalization (B754_zero s1 : f64) (B754_zero s2) Rel) = true.
Proof. intros [] []; vm_compute; reflexivity. Qed.
Print Assumptions C42_rel_zero.

(** Swapping the two sides flips the sign. *)
Lemma sub_swap : forall x y : f64,
  isnan (nsub y x) = isnan (nsub x y) /\ (isnan (nsub x y) = false -> key (nsub y x) = - key (nsub x y)).
Proof.
  intros x y. destruct (isfin x) eqn:Fx; [destruct (isfin y) eqn:Fy|].
  - destruct (sub_fin x y Fx Fy) as (N1 & K1). destruct (sub_fin y x Fy Fx) as (N2 & K2).
    split; [congruence|]. intros _. rewrite K1, K2, <- sat_opp, <- rnd_opp. f_equal. f_equal. ring.
  - destruct y as [|[]| |]; try discriminate; destruct x; try discriminate; (split; [reflexivity|]);
      cbn [nsub Num_f64 Bminus negb Bool.eqb is_nan key]; intros H; try discriminate H; rewrite ?Ropp_involutive; reflexivity.
  - destruct x as [|[]| |]; try discriminate; destruct y as [|[]| |]; (split; [reflexivity|]);
      cbn [nsub Num_f64 Bminus negb Bool.eqb is_nan key]; intros H; try discriminate H; rewrite ?Ropp_involutive; reflexivity.
Qed.

Lemma div_swap : forall a b d : f64, isnan b = isnan a -> (isnan a = false -> key b = - key a) ->
  isnan (ndiv b d) = isnan (ndiv a d) /\
  (isnan (ndiv a d) = false -> key (ndiv b d) = - key (ndiv a d)).
Proof.
  assert (Z : forall x : f64, isnan x = false -> key x = 0 -> exists s, x = B754_zero s).
  { intros x Hn Hx. assert (B := bpow_gt_0 radix2 1024).
    destruct x as [s|[]| |s m e He]; try discriminate; cbn [key] in Hx; [eauto|lra|lra|].
    exfalso. apply eq_0_F2R in Hx. destruct s; discriminate Hx. }
  assert (NZ : forall s m e He, key (B754_finite s m e He : f64) <> 0).
  { intros s m e He Hx. cbn [key B2R] in Hx. apply eq_0_F2R in Hx. destruct s; discriminate Hx. }
  assert (B := bpow_gt_0 radix2 1024).
  intros a b d Hn Hk. destruct (isnan a) eqn:Na.
  { destruct a; try discriminate. destruct b; try discriminate. split; [reflexivity|discriminate]. }
  specialize (Hk eq_refl). destruct (isfin a) eqn:Fa.
  - assert (Fb : isfin b = true).
    { apply key_finite; [exact Hn|]. rewrite Hk, Rabs_Ropp. apply key_bound in Fa. apply Rabs_lt. exact Fa. }
    destruct (isfin d) eqn:Fd.
    + destruct (Req_dec (key d) 0) as [E|E].
      * destruct (Z d (fin_not_nan d Fd) E) as (sd & ->).
        destruct a as [| | |sa ma ea Ha]; try discriminate; destruct b as [| | |sb mb eb Hb]; try discriminate.
        -- split; [reflexivity|discriminate].
        -- exfalso. apply (NZ sb mb eb Hb). rewrite Hk. cbn [key B2R]. ring.
        -- exfalso. apply (NZ sa ma ea Ha). assert (K0 : key (B754_zero s : f64) = 0) by reflexivity.
           rewrite K0 in Hk. lra.
        -- split; [reflexivity|]. intros _.
           assert (SG : forall (s : bool) m e He, if s then key (B754_finite s m e He : f64) < 0
                                          else 0 < key (B754_finite s m e He : f64)).
           { intros [] m e He; cbn [key B2R]; [apply F2R_lt_0|apply F2R_gt_0]; cbn; lia. }
           assert (S1 := SG sa ma ea Ha). assert (S2 := SG sb mb eb Hb). rewrite Hk in S2.
           cbn [ndiv Num_f64 Bdiv].
           destruct sa, sb, sd; cbn [xorb key] in *; try lra.
      * destruct (div_fin a d Fa Fd E) as (N1 & K1). destruct (div_fin b d Fb Fd E) as (N2 & K2).
        split; [congruence|]. intros _. rewrite K1, K2, Hk, <- sat_opp, <- rnd_opp. f_equal. f_equal.
        field. exact E.
    + destruct d as [|sd| |]; try discriminate; destruct a; try discriminate; destruct b; try discriminate;
        (split; [reflexivity|]); intros _; cbn [ndiv Num_f64 Bdiv key B2R]; lra.
  - destruct a as [|sa| |]; try discriminate.
    assert (Eb : b = B754_infinity (negb sa)).
    { destruct (isfin b) eqn:Fb.
      - apply key_bound in Fb. rewrite Hk in Fb. destruct sa; cbn [key] in Fb; lra.
      - destruct b as [|sb| |]; try discriminate. destruct sa, sb; try reflexivity; exfalso; cbn [key] in Hk; lra. }
    subst b. destruct d as [sd|sd| |sd md ed Hd]; cbn [ndiv Num_f64 Bdiv is_nan];
      (split; [reflexivity|]); intros Hc; try discriminate Hc;
      destruct sa, sd; cbn [xorb negb key]; rewrite ?Ropp_involutive; reflexivity.
Qed.

Theorem C42_swap :
  forall (x y : f64) m,
  isnan (normalization y x m) = isnan (normalization x y m) /\
  (isnan (normalization x y m) = false -> key (normalization y x m) = - key (normalization x y m)).
Proof.
  intros x y m. destruct (sub_swap x y) as (H1 & H2). destruct m; cbn [normalization].
  - split; [exact H1|exact H2].
  - rewrite (add_comm y x). now apply div_swap.
  - rewrite (add_comm y x). now apply div_swap.
Qed.
Print Assumptions C42_swap.

Example C42_case :
  neqb (normalization (Fz 3) (Fz 3) Rel) n0 = true /\
  neqb (normalization (Fz 3) (Fz 1) Rel) (Fz 1) = true /\
  neqb (normalization (Fz 1) (Fz 3) Rel) (Fz (-1)) = true /\
  neqb (normalization (Fz 5) (Fz 1) Adapt) (Fz 1) = true /\
  neqb (normalization min_pos (Fz 0) Adapt) n0 = false /\
  neqb (normalization (Fz 5) (Fz 1) Abs) (Fz 4) = true.
Proof. repeat split; vm_compute; reflexivity. Qed.
