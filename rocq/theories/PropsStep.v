(** Properties of the step limitation and of the perturbations: C20 - C25. *)
From Coq Require Import Reals Lra Psatz.
From Flocq Require Import Core BinarySingleNaN.
From Verif Require Import Base Num Linalg Residuals Iteratives UserModel Jacobian Solver
  F64 F64Facts F64Arith LimitFacts Trace Samples.
Open Scope R_scope.

(** *** C20 *)

(** [p] can be built by [IterativeParams::new] from numbers. *)
Definition accepted (p : iterative_params f64) : Prop :=
  isnan (max_step_abs p) = false /\ isnan (max_step_rel p) = false /\
  isnan (min_value p) = false /\ isnan (max_value p) = false /\
  iterative_params_new (max_step_abs p) (max_step_rel p) (min_value p) (max_value p) = Ret p.

Lemma accepted_key : forall p, accepted p ->
  0 < key (max_step_abs p) /\ 0 < key (max_step_rel p) /\ key (min_value p) < key (max_value p).
Proof.
  intros p (H1 & H2 & H3 & H4 & H). unfold iterative_params_new in H.
  destruct (nleb (max_step_abs p) n0) eqn:E1; [discriminate|].
  destruct (nleb (max_step_rel p) n0) eqn:E2; [discriminate|].
  destruct (ngeb (min_value p) (max_value p)) eqn:E3; [discriminate|].
  apply leb_key_false in E1; [|assumption|reflexivity]. apply leb_key_false in E2; [|assumption|reflexivity].
  unfold ngeb in E3. apply leb_key_false in E3; [|assumption|assumption]. rewrite key_n0 in E1, E2.
  repeat split; assumption.
Qed.

(** The limits of [p] at [v]: the absolute one and, when it is a number, the
    relative one. *)
Definition is_limit (p : iterative_params f64) (v b : f64) : Prop :=
  b = max_step_abs p \/ (b = nmul (max_step_rel p) (nabs v) /\ isnan b = false).

(** What the limitation promises for the result [r] of a raw step from [v]. *)
Definition respects_limits (p : iterative_params f64) (v raw r : f64) : Prop :=
  (forall b, is_limit p v b -> nleb (nsub v b) r = true /\ nleb r (nadd v b) = true) /\
  (nleb n0 raw = true -> nleb v r = true /\ nleb r (nadd v raw) = true) /\
  (nleb raw n0 = true -> nleb r v = true /\ nleb (nadd v raw) r = true).

Definition C20_statement : Prop :=
  forall (p : iterative_params f64) (v raw : f64), accepted p -> isnan v = false -> isnan raw = false ->
  nleb (min_value p) v = true -> nleb v (max_value p) = true ->
  respects_limits p v raw (step_limitation p v raw).

(** From [v = +inf] with the default limits, [v - inf] is not a number. *)
Theorem C20_limits_respected_refuted : ~ C20_statement.
Proof.
  intros H. destruct (H default_iterative_params ninf nneginf) as (Hl & _); try reflexivity.
  - repeat split; reflexivity.
  - destruct (Hl ninf) as (Hb & _); [left; reflexivity|]. discriminate Hb.
Qed.
Print Assumptions C20_limits_respected_refuted.

(** The step that is added to the current value. *)
Lemma limited_amount : forall (p : iterative_params f64) (v raw : f64), accepted p -> isfin v = true -> isnan raw = false ->
  exists st : f64, isnan st = false /\
    step_limitation p v raw = nmin (nmax (nadd v st) (min_value p)) (max_value p) /\
    (forall b, is_limit p v b -> Rabs (key st) <= key b) /\
    Rabs (key st) <= Rabs (key raw) /\
    (0 < key raw -> 0 <= key st) /\ (key raw < 0 -> key st <= 0).
Proof.
  intros p v raw Ha Hv Hr. assert (Hk := accepted_key p Ha). destruct Hk as (Ka & Kr & _).
  destruct Ha as (Na & Nr & _).
  assert (Hm : isnan (nmin (max_step_abs p) (nmul (max_step_rel p) (nabs v))) = false /\
    0 <= key (nmin (max_step_abs p) (nmul (max_step_rel p) (nabs v))) /\
    (forall b, is_limit p v b -> key (nmin (max_step_abs p) (nmul (max_step_rel p) (nabs v))) <= key b)).
  { split; [apply nmin_not_nan; auto|].
    destruct (isnan (nmul (max_step_rel p) (nabs v))) eqn:E.
    - rewrite nmin_nan_r by auto. split; [lra|]. intros b [->|(-> & Hb)]; [lra|]. discriminate (eq_trans (eq_sym Hb) E).
    - destruct (nmin_key _ _ Na E) as (_ & -> & _).
      assert (0 <= key (nmul (max_step_rel p) (nabs v))).
      { apply mul_nonneg; auto; [lra|apply abs_ge_0]. }
      split; [apply Rmin_glb; lra|]. intros b [->|(-> & _)]; [apply Rmin_l|apply Rmin_r]. }
  destruct Hm as (Nm & Pm & Lm).
  set (m := nmin (max_step_abs p) (nmul (max_step_rel p) (nabs v))) in *.
  assert (Nar : isnan (nabs raw) = false) by (rewrite abs_nan; exact Hr).
  destruct (nmin_key m (nabs raw) Nm Nar) as (Nc & Kc & _). rewrite key_abs in Kc.
  assert (Pc : 0 <= key (nmin m (nabs raw))) by (rewrite Kc; apply Rmin_glb; [exact Pm|apply Rabs_pos]).
  exists (nmul (nmin m (nabs raw)) (nsignum raw)).
  assert (Hst : isnan (nmul (nmin m (nabs raw)) (nsignum raw)) = false /\
     Rabs (key (nmul (nmin m (nabs raw)) (nsignum raw))) = key (nmin m (nabs raw)) /\
     (0 < key raw -> 0 <= key (nmul (nmin m (nabs raw)) (nsignum raw))) /\
     (key raw < 0 -> key (nmul (nmin m (nabs raw)) (nsignum raw)) <= 0)).
  { destruct (signum_cases raw Hr) as [(-> & Hk & _)|(-> & Hk & _)].
    - rewrite mul_one by exact Nc. repeat split; auto; [apply Rabs_pos_eq; lra|lra].
    - rewrite mul_mone by exact Nc. rewrite opp_nan, key_opp. repeat split; auto.
      + rewrite Rabs_Ropp. apply Rabs_pos_eq; lra.
      + lra.
      + lra. }
  destruct Hst as (H1 & H2 & H3 & H4). split; [exact H1|]. split; [reflexivity|].
  split; [|split; [|auto]].
  - intros b Hb. rewrite H2, Kc. eapply Rle_trans; [apply Rmin_l|]. now apply Lm.
  - rewrite H2, Kc. apply Rmin_r.
Qed.

Lemma key_add_mono : forall v a b : f64, isfin v = true -> isnan a = false -> isnan b = false ->
  key a <= key b -> key (nadd v a) <= key (nadd v b).
Proof.
  intros v a b Hv Ha Hb H.
  assert (N1 : isnan (nadd v a) = false) by (apply add_not_nan; auto using fin_not_nan).
  assert (N2 : isnan (nadd v b) = false) by (apply add_not_nan; auto using fin_not_nan).
  apply leb_key; auto. apply add_mono; auto. now apply leb_key.
Qed.

(** Corrected statement: for finite [v] all limits are respected, the move has
    the direction of the raw step and does not exceed it. *)
Theorem C20_limits_respected :
  forall (p : iterative_params f64) (v raw : f64), accepted p -> isfin v = true -> isnan raw = false ->
  nleb (min_value p) v = true -> nleb v (max_value p) = true ->
  respects_limits p v raw (step_limitation p v raw).
Proof.
  intros p v raw Ha Hv Hr Hlo Hhi.
  destruct (limited_amount p v raw Ha Hv Hr) as (st & Ns & -> & Hb & Hraw & Hp & Hn).
  assert (Hacc := Ha). destruct Hacc as (Na & Nr & Nmin & Nmax & _).
  assert (Nv : isnan v = false) by (apply fin_not_nan; exact Hv).
  assert (Kmm := accepted_key p Ha). destruct Kmm as (_ & _ & Kmm).
  apply leb_key in Hlo; auto. apply leb_key in Hhi; auto.
  assert (Nw : isnan (nadd v st) = false) by (apply add_not_nan; auto).
  destruct (clamp_box (nadd v st) (min_value p) (max_value p) Nmin Nmax (Rlt_le _ _ Kmm)) as (Nc & _).
  assert (Kc := clamp_key (nadd v st) (min_value p) (max_value p) Nw Nmin Nmax).
  set (r := nmin (nmax (nadd v st) (min_value p)) (max_value p)) in *.
  (* r lies between v and v + st *)
  assert (Hmid : (0 <= key st -> key v <= key r <= key (nadd v st)) /\
                 (key st <= 0 -> key (nadd v st) <= key r <= key v)).
  { destruct (add_zero_key v n0 Nv nan_n0 key_n0) as (N0 & K0).
    split; intros Hs.
    - assert (key v <= key (nadd v st)).
      { rewrite <- K0. apply key_add_mono; auto; rewrite key_n0; exact Hs. }
      rewrite Kc. unfold Rmin, Rmax. destruct (Rle_dec _ (key (min_value p))), (Rle_dec _ (key (max_value p))); lra.
    - assert (key (nadd v st) <= key v).
      { rewrite <- K0. apply key_add_mono; auto; rewrite key_n0; exact Hs. }
      rewrite Kc. unfold Rmin, Rmax. destruct (Rle_dec _ (key (min_value p))), (Rle_dec _ (key (max_value p))); lra. }
  assert (Hdir : 0 <= key st \/ key st <= 0) by lra.
  split; [|split].
  - intros b Hlim. assert (Nb : isnan b = false) by (destruct Hlim as [->|(_ & ?)]; auto).
    specialize (Hb b Hlim). assert (Hs := Rle_abs (key st)). assert (Hs' := Rle_abs (- key st)).
    rewrite Rabs_Ropp in Hs'. assert (Hs0 := Rabs_pos (key st)).
    assert (Nob : isnan (nneg b) = false) by (rewrite opp_nan; exact Nb).
    assert (N1 : isnan (nadd v b) = false) by (apply add_not_nan; auto).
    assert (N2 : isnan (nadd v (nneg b)) = false) by (apply add_not_nan; auto).
    assert (U : key (nadd v st) <= key (nadd v b)) by (apply key_add_mono; auto; lra).
    assert (L : key (nadd v (nneg b)) <= key (nadd v st)).
    { apply key_add_mono; auto; rewrite key_opp; lra. }
    destruct (add_zero_key v n0 Nv nan_n0 key_n0) as (N0 & K0).
    assert (U0 : key v <= key (nadd v b)).
    { rewrite <- K0. apply key_add_mono; auto; rewrite key_n0; lra. }
    assert (L0 : key (nadd v (nneg b)) <= key v).
    { rewrite <- K0. apply key_add_mono; auto; rewrite key_n0, key_opp; lra. }
    rewrite sub_add by auto. split; apply leb_key; auto; destruct Hdir as [Hd|Hd];
      apply Hmid in Hd; lra.
  - intros Hpos. apply leb_true_inv in Hpos. destruct Hpos as (_ & _ & Hpos). rewrite key_n0 in Hpos.
    assert (Hs : 0 <= key st).
    { destruct Hpos as [H|H]; [auto|]. rewrite <- H, Rabs_R0 in Hraw.
      assert (Hs0 := Rabs_pos (key st)). assert (H0 : Rabs (key st) = 0) by lra.
      destruct (Req_dec (key st) 0) as [->|Hn0]; [lra|]. apply Rabs_no_R0 in Hn0. contradiction. }
    rewrite (Rabs_pos_eq (key st)) in Hraw by exact Hs. rewrite (Rabs_pos_eq (key raw)) in Hraw by exact Hpos.
    assert (N1 : isnan (nadd v raw) = false) by (apply add_not_nan; auto).
    assert (key (nadd v st) <= key (nadd v raw)) by (apply key_add_mono; auto).
    apply Hmid in Hs. split; apply leb_key; auto; lra.
  - intros Hneg. apply leb_true_inv in Hneg. destruct Hneg as (_ & _ & Hneg). rewrite key_n0 in Hneg.
    assert (Hs : key st <= 0).
    { destruct Hneg as [H|H]; [auto|]. rewrite H, Rabs_R0 in Hraw.
      assert (Hs0 := Rabs_pos (key st)). assert (H0 : Rabs (key st) = 0) by lra.
      destruct (Req_dec (key st) 0) as [->|Hn0]; [lra|]. apply Rabs_no_R0 in Hn0. contradiction. }
    rewrite (Rabs_left1 (key st)) in Hraw by exact Hs. rewrite (Rabs_left1 (key raw)) in Hraw by exact Hneg.
    assert (N1 : isnan (nadd v raw) = false) by (apply add_not_nan; auto).
    assert (key (nadd v raw) <= key (nadd v st)) by (apply key_add_mono; auto; lra).
    apply Hmid in Hs. split; apply leb_key; auto; lra.
Qed.
Print Assumptions C20_limits_respected.

(** A step inside the limits is added unchanged (up to the box). *)
Theorem C20_small_steps_kept :
  forall (p : iterative_params f64) (v raw : f64), isnan raw = false -> isnan (max_step_abs p) = false ->
  (forall b, is_limit p v b -> nltb (nabs raw) b = true) ->
  nleb (min_value p) (nadd v raw) = true -> nleb (nadd v raw) (max_value p) = true ->
  neqb (step_limitation p v raw) (nadd v raw) = true.
Proof.
  intros p v raw Hr Na Hb Hlo Hhi. unfold step_limitation.
  assert (Nar : isnan (nabs raw) = false) by (rewrite abs_nan; exact Hr).
  assert (Hmin : nmin (nmin (max_step_abs p) (nmul (max_step_rel p) (nabs v))) (nabs raw) = nabs raw).
  { assert (Hm : nltb (nabs raw) (nmin (max_step_abs p) (nmul (max_step_rel p) (nabs v))) = true).
    { destruct (isnan (nmul (max_step_rel p) (nabs v))) eqn:E.
      - rewrite nmin_nan_r by auto. apply Hb. left. reflexivity.
      - destruct (nmin_key _ _ Na E) as (_ & _ & [->| ->]); apply Hb; [left|right]; auto. }
    assert (Hm' := Hm). apply ltb_true_inv in Hm'. destruct Hm' as (_ & Nm & _).
    unfold nmin at 1. rewrite !nisnan_f64, Nm, Nar, Hm. reflexivity. }
  rewrite Hmin, abs_mul_signum by exact Hr.
  apply leb_true_inv in Hlo. destruct Hlo as (N1 & N2 & K1).
  apply leb_true_inv in Hhi. destruct Hhi as (_ & N3 & K2).
  assert (Kc := clamp_key _ _ _ N2 N1 N3). rewrite Rmax_left, Rmin_left in Kc by lra.
  apply eqb_key; auto. apply clamp_box; auto. lra.
Qed.
Print Assumptions C20_small_steps_kept.

(** |v| = 8, relative limit 1/4, absolute limit 1. *)
Definition C20_params : iterative_params f64 :=
  mkIterativeParams (Fz 1) (ndec 1 4) (Fz (-100)) (Fz 100).
Example C20_case :
  neqb (step_limitation C20_params (Fz 8) (Fz 50)) (Fz 9) = true /\
  neqb (step_limitation C20_params (Fz 2) (Fz (-50))) (ndec 3 2) = true /\
  neqb (step_limitation C20_params (Fz 8) (ndec 1 2)) (ndec 17 2) = true /\
  accepted C20_params.
Proof. repeat split; vm_compute; reflexivity. Qed.

(** *** C21 *)

Lemma nmax_neginf : forall x : f64, isnan x = false -> nmax x nneginf = x.
Proof.
  intros x H. unfold nmax. rewrite !nisnan_f64, H. cbn [isnan].
  destruct (nltb x nneginf) eqn:E; [|destruct (isnan nneginf); reflexivity].
  exfalso. apply ltb_true_inv in E. destruct E as (_ & _ & E).
  change (key nneginf) with (- bpow radix2 1024) in E. assert (B := bpow_gt_0 radix2 1024).
  destruct (isfin x) eqn:Fx; [apply key_bound in Fx; lra|].
  destruct x as [|[]| |]; try discriminate; cbn [key] in E; lra.
Qed.
Lemma nmin_inf : forall x : f64, isnan x = false -> nmin x ninf = x.
Proof.
  intros x H. unfold nmin. rewrite !nisnan_f64, H. cbn [isnan].
  destruct (nltb ninf x) eqn:E; [|destruct (isnan ninf); reflexivity].
  exfalso. apply ltb_true_inv in E. destruct E as (_ & _ & E).
  change (key ninf) with (bpow radix2 1024) in E. assert (B := bpow_gt_0 radix2 1024).
  destruct (isfin x) eqn:Fx; [apply key_bound in Fx; lra|].
  destruct x as [|[]| |]; try discriminate; cbn [key] in E; lra.
Qed.
Lemma inf_abs : forall v : f64, nmul ninf (nabs v) = ninf \/ isnan (nmul (ninf : f64) (nabs v)) = true.
Proof. intros [[]|[]| |[] m e H]; auto. Qed.
Lemma inf_nmin : forall x : f64, isnan x = false -> nmin ninf (nabs x) = nabs x.
Proof.
  intros x H. unfold nmin. rewrite !nisnan_f64, abs_nan, H. change (isnan ninf) with false. cbv iota.
  destruct (nltb (nabs x) ninf) eqn:E; [reflexivity|].
  apply ltb_key_false in E; [|rewrite abs_nan; exact H|reflexivity].
  change (key ninf) with (bpow radix2 1024) in E. assert (B := bpow_gt_0 radix2 1024).
  destruct (isfin (nabs x)) eqn:Fx; [apply key_bound in Fx; lra|].
  destruct x as [|[]| |]; try discriminate; reflexivity.
Qed.

(** Bit for bit. *)
Theorem C21_default_limits :
  forall v s : f64, isnan (nadd v s) = false ->
  step_limitation default_iterative_params v s = nadd v s.
Proof.
  intros v s H. unfold step_limitation, default_iterative_params.
  cbn [max_step_abs max_step_rel min_value max_value].
  assert (Hs : isnan s = false) by (destruct v, s; try reflexivity; discriminate).
  assert (Hm : nmin (ninf : f64) (nmul ninf (nabs v)) = ninf).
  { destruct (inf_abs v) as [->|E]; [reflexivity|]. apply nmin_nan_r; [reflexivity|exact E]. }
  rewrite Hm, inf_nmin, abs_mul_signum by exact Hs.
  rewrite nmax_neginf, nmin_inf by exact H. reflexivity.
Qed.
Print Assumptions C21_default_limits.

Example C21_case :
  neqb (step_limitation default_iterative_params (Fz 0) (Fz 7)) (Fz 7) = true /\
  neqb (step_limitation default_iterative_params (Fz 3) nneginf) nneginf = true /\
  neqb (step_limitation default_iterative_params (ndec 1 10) (ndec 2 10))
    (nadd (ndec 1 10) (ndec 2 10)) = true.
Proof. repeat split; vm_compute; reflexivity. Qed.

(** *** C22 *)

Lemma add_nan_r : forall v x : f64, isnan x = true -> isnan (nadd v x) = true.
Proof. intros [] [] H; try discriminate; reflexivity. Qed.

Theorem C22_nan_step :
  forall (p : iterative_params f64) (v raw : f64), isnan raw = true -> nleb (min_value p) (max_value p) = true ->
  step_limitation p v raw = min_value p.
Proof.
  intros p v raw Hr H. unfold step_limitation.
  assert (Hs : isnan (nsignum raw) = true) by (destruct raw; try discriminate; reflexivity).
  rewrite nmax_nan_l.
  - apply leb_true_inv in H. destruct H as (N1 & N2 & K). unfold nmin.
    rewrite !nisnan_f64, N1, N2. destruct (nltb (max_value p) (min_value p)) eqn:E; [|reflexivity].
    apply ltb_true_inv in E. lra.
  - apply add_nan_r. destruct (nmin _ _); destruct (nsignum raw); try discriminate; reflexivity.
Qed.
Print Assumptions C22_nan_step.

Theorem C22_never_nan :
  forall (p : iterative_params f64) (v raw : f64), isnan (min_value p) = false -> isnan (step_limitation p v raw) = false.
Proof.
  intros p v raw H. unfold step_limitation. apply nmin_not_nan. left.
  match goal with |- isnan (nmax ?w _) = _ =>
    destruct (isnan w) eqn:E; [rewrite (nmax_nan_l w) by exact E; exact H|] end.
  apply nmax_key; auto.
Qed.
Print Assumptions C22_never_nan.

(** A jacobian that is not a number sends a solver with default limits to
    minus infinity. *)
Example C22_case :
  check_run (solve (traced (model_from_function_and_jacobian sq2 (fun _ => [[nnan]])))
      (sample_rf (params6 1 1 NewtonRaphson false) [Fz 1] (jac_its 1) (abs_conf 1))
      (user_model_new 1, []))
    (fun rf p r => match points (snd p) with
                   | [_; [x]] => neqb x nneginf
                   | _ => false
                   end) = true.
Proof. vm_compute. reflexivity. Qed.

(** *** C23 *)

Definition C23_statement : Prop :=
  (forall (a r mn mx : f64) p, iterative_params_new a r mn mx = Ret p ->
     nltb n0 a = true /\ nltb n0 r = true /\ nltb mn mx = true) /\
  (forall (a r mn mx da dr : f64) m p, iterative_params_fd_new a r mn mx da dr m = Ret p ->
     nltb n0 a = true /\ nltb n0 r = true /\ nltb mn mx = true /\
     nltb n0 da = true /\ nltb n0 dr = true) /\
  (forall q (da dr : f64) m p, iterative_params_fd_extend q da dr m = Ret p ->
     nltb n0 da = true /\ nltb n0 dr = true).

(** NaN is accepted everywhere. *)
Theorem C23_constructors_refuted : ~ C23_statement.
Proof.
  intros (H & _). destruct (H nnan nnan nnan nnan (mkIterativeParams nnan nnan nnan nnan)) as (Hc & _);
    [reflexivity|discriminate Hc].
Qed.
Print Assumptions C23_constructors_refuted.
Theorem C23_constructors_accept_nan :
  (exists p, iterative_params_new (nnan : f64) nnan nnan nnan = Ret p) /\
  (forall m, exists p, iterative_params_fd_new (nnan : f64) nnan nnan nnan nnan nnan m = Ret p) /\
  (forall q m, exists p, iterative_params_fd_extend q (nnan : f64) nnan m = Ret p).
Proof. repeat split; intros; eexists; reflexivity. Qed.

Definition numbers (l : list f64) : Prop := Forall (fun x => isnan x = false) l.

Lemma leb_flip : forall x y : f64, isnan x = false -> isnan y = false -> nleb x y = negb (nltb y x).
Proof.
  intros x y Hx Hy. destruct (nltb y x) eqn:E; cbn [negb].
  - apply leb_key_false; auto. apply ltb_key in E; auto.
  - apply leb_key; auto. apply ltb_key_false in E; auto.
Qed.

(** Without NaN the constructors accept exactly the valid limits and store them. *)
Theorem C23_new :
  forall a r mn mx : f64, numbers [a; r; mn; mx] ->
  iterative_params_new a r mn mx =
  if nltb n0 a && nltb n0 r && nltb mn mx then Ret (mkIterativeParams a r mn mx) else Panic PanicParam.
Proof.
  intros a r mn mx H. inversion H as [|? ? H1 H2]; subst. inversion H2 as [|? ? H3 H4]; subst.
  inversion H4 as [|? ? H5 H6]; subst. inversion H6 as [|? ? H7 H8]; subst.
  unfold iterative_params_new, ngeb. rewrite !leb_flip by auto.
  destruct (nltb n0 a), (nltb n0 r), (nltb mn mx); reflexivity.
Qed.
Print Assumptions C23_new.
Theorem C23_fd_extend :
  forall q (da dr : f64) m, numbers [da; dr] ->
  iterative_params_fd_extend q da dr m =
  if nltb n0 da && nltb n0 dr then Ret (mkIterativeParamsFD q m da dr) else Panic PanicParam.
Proof.
  intros q da dr m H. inversion H as [|? ? H1 H2]; subst. inversion H2 as [|? ? H3 H4]; subst.
  unfold iterative_params_fd_extend. rewrite !leb_flip by auto.
  destruct (nltb n0 da), (nltb n0 dr); reflexivity.
Qed.
Print Assumptions C23_fd_extend.
Theorem C23_fd_new :
  forall (a r mn mx da dr : f64) m, numbers [a; r; mn; mx] -> numbers [da; dr] ->
  iterative_params_fd_new a r mn mx da dr m =
  if nltb n0 a && nltb n0 r && nltb mn mx && nltb n0 da && nltb n0 dr
  then Ret (mkIterativeParamsFD (mkIterativeParams a r mn mx) m da dr) else Panic PanicParam.
Proof.
  intros a r mn mx da dr m H H'. unfold iterative_params_fd_new. rewrite C23_new by exact H.
  inversion H' as [|? ? H1 H2]; subst. inversion H2 as [|? ? H3 H4]; subst.
  rewrite !leb_flip by auto.
  destruct (nltb n0 da), (nltb n0 dr), (nltb n0 a), (nltb n0 r), (nltb mn mx); reflexivity.
Qed.
Print Assumptions C23_fd_new.

Example C23_case :
  (exists p, iterative_params_new (Fz 1) (Fz 1) (Fz (-1)) (Fz 1) = Ret p) /\
  iterative_params_new (Fz 0) (Fz 1) (Fz (-1)) (Fz 1) = Panic PanicParam /\
  iterative_params_new (Fz 1) (Fz (-1)) (Fz (-1)) (Fz 1) = Panic PanicParam /\
  iterative_params_new (Fz 1) (Fz 1) (Fz 1) (Fz 1) = Panic PanicParam /\
  iterative_params_fd_new (Fz 1) (Fz 1) (Fz 1) (Fz 2) (Fz 0) (Fz 1) PMax = Panic PanicParam.
Proof. repeat split; try reflexivity. eexists. reflexivity. Qed.

(** *** C24 *)

Definition C24_statement : Prop :=
  forall (p : iterative_params_fd f64) (x : f64), isnan x = false -> nltb n0 (fd_dx_abs p) = true -> nltb n0 (fd_dx_rel p) = true ->
  nltb n0 (compute_perturbation p x) = true.

(** With the sum and an infinite relative perturbation, [0 * inf] is not a number. *)
Theorem C24_positive_refuted : ~ C24_statement.
Proof.
  intros H.
  specialize (H (mkIterativeParamsFD default_iterative_params PSum (Fz 1) ninf) (Fz 0) eq_refl eq_refl eq_refl).
  discriminate H.
Qed.
Print Assumptions C24_positive_refuted.

Theorem C24_positive :
  forall (p : iterative_params_fd f64) (x : f64), isnan x = false -> nltb n0 (fd_dx_abs p) = true -> nltb n0 (fd_dx_rel p) = true ->
  (fd_method p = PMax \/ isfin (fd_dx_rel p) = true) ->
  nltb n0 (compute_perturbation p x) = true.
Proof.
  intros p x Hx Ha Hr Hm. assert (H := Ha). apply ltb_true_inv in H. destruct H as (_ & Na & Ka).
  assert (H := Hr). apply ltb_true_inv in H. destruct H as (_ & Nr & Kr). rewrite key_n0 in Ka, Kr.
  assert (Nax : isnan (nabs x) = false) by (rewrite abs_nan; exact Hx).
  assert (Hp : isnan (nmul (nabs x) (fd_dx_rel p)) = false -> 0 <= key (nmul (nabs x) (fd_dx_rel p))).
  { intros Hn. apply mul_nonneg; auto; [apply abs_ge_0|lra]. }
  unfold compute_perturbation. destruct (fd_method p) eqn:E.
  - destruct (isnan (nmul (nabs x) (fd_dx_rel p))) eqn:En.
    + rewrite nmax_nan_r by auto. exact Ha.
    + destruct (nmax_key _ _ Na En) as (N1 & K1 & _). apply ltb_key; auto.
      rewrite key_n0, K1. assert (M := Rmax_l (key (fd_dx_abs p)) (key (nmul (nabs x) (fd_dx_rel p)))). lra.
  - destruct Hm as [Hm|Hm]; [discriminate|].
    assert (En : isnan (nmul (nabs x) (fd_dx_rel p)) = false).
    { destruct (isfin (nabs x)) eqn:Fx; [now apply mul_fin|].
      destruct x as [|s| |]; try discriminate. destruct (fd_dx_rel p) as [|[]| |[] ? ? ?]; try discriminate; try reflexivity;
        cbn [key B2R] in Kr; lra. }
    assert (Na2 : isnan (nadd (fd_dx_abs p) (nmul (nabs x) (fd_dx_rel p))) = false /\
       key (fd_dx_abs p) <= key (nadd (fd_dx_abs p) (nmul (nabs x) (fd_dx_rel p)))).
    { specialize (Hp En). set (q := nmul (nabs x) (fd_dx_rel p)) in *.
      assert (N : isnan (nadd (fd_dx_abs p) q) = false).
      { destruct (isfin (fd_dx_abs p)) eqn:F1; [apply add_not_nan; auto|].
        destruct (isfin q) eqn:F2; [apply add_not_nan; auto|].
        clear - Ka Hp F1 F2 Na En. assert (B := bpow_gt_0 radix2 1024).
        destruct (fd_dx_abs p) as [|[]| |]; try discriminate; destruct q as [|[]| |]; try discriminate;
          try reflexivity; cbn [key] in *; lra. }
      split; [exact N|]. destruct (add_zero_key (fd_dx_abs p) n0 Na nan_n0 key_n0) as (N0 & K0).
      rewrite <- K0. apply leb_key; auto. apply add_mono; auto. apply leb_key; [exact nan_n0|exact En|].
      rewrite key_n0. exact Hp. }
    destruct Na2 as (N2 & K2). apply ltb_key; auto. rewrite key_n0. lra.
Qed.
Print Assumptions C24_positive.

(** The default perturbation is between 2^-25 and 1. *)
Lemma default_dx : isfin (ndec 5 100000000) = true /\
  bpow radix2 (-25) <= key (ndec 5 100000000) < 1.
Proof.
  split; [vm_compute; reflexivity|].
  assert (H1 : nleb (ndec 1 33554432 : f64) (ndec 5 100000000) = true) by (vm_compute; reflexivity).
  assert (H2 : nltb (ndec 5 100000000 : f64) n1 = true) by (vm_compute; reflexivity).
  apply leb_true_inv in H1. apply ltb_true_inv in H2. rewrite key_n1 in H2.
  rewrite (key_sf (ndec 1 33554432) false 4503599627370496 (-77)) in H1 by (vm_compute; reflexivity).
  destruct H1 as (_ & _ & H1). split; [|tauto]. eapply Rle_trans; [|exact H1].
  unfold F2R. cbn [Fnum Fexp cond_Zopp]. change (IZR 4503599627370496) with (IZR (radix2 ^ 52)).
  rewrite IZR_Zpower by lia. rewrite <- bpow_plus. apply bpow_le. lia.
Qed.

Lemma valid_fexp64 : Valid_exp (SpecFloat.fexp 53 1024).
Proof. apply BinarySingleNaN.fexp_correct. reflexivity. Qed.
Lemma mono_fexp64 : Monotone_exp (SpecFloat.fexp 53 1024).
Proof. apply BinarySingleNaN.fexp_monotone. Qed.

(** A perturbation of at least one ulp is not absorbed. *)
Lemma not_absorbed : forall x d : f64, isfin x = true -> isnan d = false ->
  ulp radix2 (SpecFloat.fexp 53 1024) (key x) <= key d -> 0 < key d ->
  isnan (nadd x d) = false /\ key x < key (nadd x d).
Proof.
  intros x d Fx Nd Hu Hd. assert (B := big_pos).
  split; [apply add_not_nan; auto using fin_not_nan|].
  assert (Kb := key_bound x Fx). destruct (isfin d) eqn:Fd.
  - destruct (add_fin x d Fx Fd) as (_ & ->).
    destruct (Req_dec (key x) 0) as [Z|Z].
    { rewrite Z, Rplus_0_l. rewrite (key_fin d Fd), rnd_fin, sat_id; [rewrite <- (key_fin d Fd); lra|].
      left. apply abs_B2R_lt_emax. }
    assert (Hs : key x < succ radix2 (SpecFloat.fexp 53 1024) (key x)).
    { apply succ_gt_id. exact Z. }
    assert (Hle : succ radix2 (SpecFloat.fexp 53 1024) (key x) <= key x + key d).
    { eapply Rle_trans; [apply succ_le_plus_ulp; apply mono_fexp64|]. lra. }
    assert (Hr : succ radix2 (SpecFloat.fexp 53 1024) (key x) <= rnd (key x + key d)).
    { unfold rnd. apply round_ge_generic; auto with typeclass_instances.
      apply generic_format_succ; [apply valid_fexp64|]. rewrite (key_fin x Fx). apply generic_format_B2R. }
    apply Rlt_le_trans with (sat (succ radix2 (SpecFloat.fexp 53 1024) (key x))); [|now apply sat_le].
    unfold sat. fold big in Kb. apply Rlt_le_trans with (Rmin big (succ radix2 (SpecFloat.fexp 53 1024) (key x))).
    + apply Rmin_glb_lt; lra.
    + apply Rmax_r.
  - destruct d as [|[]| |]; try discriminate; cbn [key] in Hd; fold big in Hd; [lra|].
    destruct x; try discriminate; cbn [nadd Num_f64 Bplus key] in *; fold big; fold big in Kb; lra.
Qed.

Theorem C24_default_effective :
  forall x : f64, isfin x = true ->
  let y := nadd x (compute_perturbation default_iterative_params_fd x) in
  isnan y = false /\ nltb x y = true.
Proof.
  intros x Fx y. assert (Nx : isnan x = false) by (apply fin_not_nan; exact Fx).
  destruct default_dx as (Fk & Kk1 & Kk2). pose proof (bpow_gt_0 radix2 (-25)) as P25.
  set (d := compute_perturbation default_iterative_params_fd x) in *.
  assert (Fax : isfin (nabs x) = true) by (rewrite abs_fin; exact Fx).
  destruct (mul_fin (nabs x) (ndec 5 100000000) Fax Fk) as (Nm & Km).
  assert (Hd : isnan d = false /\ key d = Rmax (key (ndec 5 100000000)) (key (nmul (nabs x) (ndec 5 100000000)))).
  { unfold d, compute_perturbation, default_iterative_params_fd. cbn [fd_method fd_dx_abs fd_dx_rel].
    destruct (nmax_key (ndec 5 100000000) (nmul (nabs x) (ndec 5 100000000)) (fin_not_nan _ Fk) Nm) as (H1 & H2 & _).
    split; assumption. }
  destruct Hd as (Nd & Kd).
  assert (Kd1 : bpow radix2 (-25) <= key d) by (rewrite Kd; eapply Rle_trans; [exact Kk1|apply Rmax_l]).
  assert (Hu : ulp radix2 (SpecFloat.fexp 53 1024) (key x) <= key d).
  { destruct (Req_dec (key x) 0) as [Z|Z].
    - rewrite Z. assert (E : SpecFloat.fexp 53 1024 = FLT_exp (-1074) 53) by reflexivity.
      rewrite E, ulp_FLT_0 by reflexivity. eapply Rle_trans; [|exact Kd1]. apply bpow_le. lia.
    - rewrite ulp_neq_0 by exact Z. unfold cexp. destruct (mag radix2 (key x)) as (m & Hm). cbn [mag_val].
      specialize (Hm Z). unfold SpecFloat.fexp, SpecFloat.emin. destruct (Z_le_gt_dec m 0) as [L|L].
      + eapply Rle_trans; [|exact Kd1]. apply bpow_le. lia.
      + assert (Hmax : (m <= 1024)%Z).
        { assert (Hb := key_bound x Fx). assert (Rabs (key x) < bpow radix2 1024) by (apply Rabs_lt; lra).
          assert (bpow radix2 (m - 1) < bpow radix2 1024) by lra. apply lt_bpow in H0. lia. }
        apply Rle_trans with (bpow radix2 (m - 26)).
        * apply bpow_le. lia.
        * rewrite Kd. eapply Rle_trans; [|apply Rmax_r]. rewrite Km, key_abs.
          rewrite <- (sat_id (bpow radix2 (m - 26))).
          -- apply sat_le. unfold rnd. apply round_ge_generic; auto with typeclass_instances.
             ++ apply generic_format_bpow. unfold SpecFloat.fexp, SpecFloat.emin. lia.
             ++ replace (m - 26)%Z with (m - 1 + -25)%Z by lia. rewrite bpow_plus.
                apply Rmult_le_compat; try apply bpow_ge_0; tauto.
          -- rewrite Rabs_pos_eq by apply bpow_ge_0. apply bpow_le. lia. }
  destruct (not_absorbed x d Fx Nd Hu ltac:(lra)) as (H1 & H2).
  split; [exact H1|]. apply ltb_key; auto.
Qed.
Print Assumptions C24_default_effective.

Example C24_case :
  nltb n0 (compute_perturbation default_iterative_params_fd (Fz (-100000000))) = true /\
  neqb (compute_perturbation default_iterative_params_fd (Fz 0)) (ndec 5 100000000) = true /\
  nltb (Fz 9007199254740992) (nadd (Fz 9007199254740992)
    (compute_perturbation default_iterative_params_fd (Fz 9007199254740992))) = true /\
  (* a perturbation of 1 would be absorbed there *)
  neqb (nadd (Fz 9007199254740992) (Fz 1)) (Fz 9007199254740992) = true.
Proof. repeat split; vm_compute; reflexivity. Qed.

(** *** C25 *)

(** As documented: the constructors accept a zero and then give the pure rule. *)
Definition C25_statement : Prop :=
  forall q (d : f64) m, nltb n0 d = true -> isfin d = true ->
  (exists p, iterative_params_fd_extend q n0 d m = Ret p /\
     forall x, isfin x = true -> neqb (compute_perturbation p x) (nmul d (nabs x)) = true) /\
  (exists p, iterative_params_fd_extend q d n0 m = Ret p /\
     forall x, isfin x = true -> neqb (compute_perturbation p x) d = true).

Theorem C25_pure_rule_refuted : ~ C25_statement.
Proof.
  intros H. destruct (H default_iterative_params (Fz 1) PMax) as ((p & Hp & _) & _); try reflexivity.
  discriminate Hp.
Qed.
Print Assumptions C25_pure_rule_refuted.

(** Both constructors panic on a zero, whatever the other parameters. *)
Theorem C25_zero_rejected :
  forall (a r mn mx d : f64) q m,
  iterative_params_fd_new a r mn mx n0 d m = Panic PanicParam /\
  iterative_params_fd_new a r mn mx d n0 m = Panic PanicParam /\
  iterative_params_fd_extend q n0 d m = Panic PanicParam /\
  iterative_params_fd_extend q d n0 m = Panic PanicParam.
Proof.
  intros a r mn mx d q m. unfold iterative_params_fd_new, iterative_params_fd_extend.
  change (nleb (n0 : f64) n0) with true. cbv iota. destruct (nleb d n0); repeat split; reflexivity.
Qed.
Print Assumptions C25_zero_rejected.

(** The rule that the documentation describes does follow from the formula of
    [compute_perturbation]; only the constructors forbid it. *)
Theorem C25_rule_of_the_formula :
  forall q (d x : f64) m, nltb n0 d = true -> isfin d = true -> isfin x = true ->
  neqb (compute_perturbation (mkIterativeParamsFD q m n0 d) x) (nmul (nabs x) d) = true /\
  neqb (compute_perturbation (mkIterativeParamsFD q m d n0) x) d = true.
Proof.
  intros q d x m Hd Fd Fx. apply ltb_true_inv in Hd. destruct Hd as (_ & Nd & Kd). rewrite key_n0 in Kd.
  assert (Fax : isfin (nabs x) = true) by (rewrite abs_fin; exact Fx).
  destruct (mul_fin (nabs x) d Fax Fd) as (Nm & Km).
  assert (P : 0 <= key (nmul (nabs x) d)) by (apply mul_nonneg; auto; [apply abs_ge_0|lra]).
  assert (F0 : isfin (n0 : f64) = true) by (vm_compute; reflexivity).
  destruct (mul_fin (nabs x) n0 Fax F0) as (Nz & Kz).
  rewrite key_n0, Rmult_0_r, rnd_0, sat_id in Kz by (rewrite Rabs_R0; left; apply big_pos).
  unfold compute_perturbation. destruct m; cbn [fd_method fd_dx_abs fd_dx_rel].
  - destruct (nmax_key n0 (nmul (nabs x) d) nan_n0 Nm) as (N1 & K1 & _).
    destruct (nmax_key d (nmul (nabs x) n0) Nd Nz) as (N2 & K2 & _).
    split; apply eqb_key; auto.
    + rewrite K1, key_n0. apply Rmax_right. exact P.
    + rewrite K2, Kz. apply Rmax_left. lra.
  - rewrite (add_comm n0).
    destruct (add_zero_key (nmul (nabs x) d) n0 Nm nan_n0 key_n0) as (N1 & K1).
    destruct (add_zero_key d (nmul (nabs x) n0) Nd Nz Kz) as (N2 & K2).
    split; apply eqb_key; auto.
Qed.
Print Assumptions C25_rule_of_the_formula.
Example C25_case :
  neqb (compute_perturbation (mkIterativeParamsFD default_iterative_params PMax n0 (ndec 1 2)) (Fz (-6))) (Fz 3) = true /\
  neqb (compute_perturbation (mkIterativeParamsFD default_iterative_params PSum (ndec 1 2) n0) (Fz (-6))) (ndec 1 2) = true.
Proof. split; vm_compute; reflexivity. Qed.
