(** Order facts about binary64 numbers. *)
From Coq Require Import Reals Lra.
From Flocq Require Import Core BinarySingleNaN.
From Verif Require Import Base Num Linalg F64.
Open Scope R_scope.

Notation isnan := (@is_nan 53 1024).
Notation isfin := (@is_finite 53 1024).

(** Monotone embedding of the non-NaN doubles into the reals. *)
Definition key (x : f64) : R :=
  match x with
  | B754_infinity true => - bpow radix2 1024
  | B754_infinity false => bpow radix2 1024
  | _ => B2R x
  end.

Lemma key_fin : forall x, isfin x = true -> key x = B2R x.
Proof. intros [] H; try discriminate; reflexivity. Qed.

Lemma key_bound : forall x, isfin x = true -> - bpow radix2 1024 < key x < bpow radix2 1024.
Proof.
  intros x H. rewrite key_fin by assumption.
  apply Rabs_lt_inv. apply abs_B2R_lt_emax.
Qed.

Lemma bcompare_key : forall x y, isnan x = false -> isnan y = false ->
  Bcompare x y = Some (Rcompare (key x) (key y)).
Proof.
  intros x y Hx Hy.
  destruct (isfin x) eqn:Fx; destruct (isfin y) eqn:Fy.
  - rewrite Bcompare_correct by assumption. rewrite !key_fin by assumption. reflexivity.
  - destruct y as [|[]| |]; try discriminate.
    + pose proof (key_bound x Fx). cbn [key].
      rewrite Rcompare_Gt by lra. destruct x as [|[]| |]; reflexivity || discriminate.
    + pose proof (key_bound x Fx). cbn [key].
      rewrite Rcompare_Lt by lra. destruct x as [|[]| |]; reflexivity || discriminate.
  - destruct x as [|[]| |]; try discriminate.
    + pose proof (key_bound y Fy). cbn [key].
      rewrite Rcompare_Lt by lra. destruct y as [|[]| |]; reflexivity || discriminate.
    + pose proof (key_bound y Fy). cbn [key].
      rewrite Rcompare_Gt by lra. destruct y as [|[]| |]; reflexivity || discriminate.
  - pose proof (bpow_gt_0 radix2 1024).
    destruct x as [|[]| |]; try discriminate; destruct y as [|[]| |]; try discriminate; cbn [key].
    + rewrite Rcompare_Eq by reflexivity. reflexivity.
    + rewrite Rcompare_Lt by lra. reflexivity.
    + rewrite Rcompare_Gt by lra. reflexivity.
    + rewrite Rcompare_Eq by reflexivity. reflexivity.
Qed.

Lemma bcompare_nan : forall x y, isnan x = true \/ isnan y = true -> Bcompare x y = None.
Proof. intros [|[]| |] [|[]| |] [H|H]; try discriminate; reflexivity. Qed.

Lemma bltb_bcompare : forall x y : f64, Bltb x y = match Bcompare x y with Some Lt => true | _ => false end.
Proof. reflexivity. Qed.
Lemma bleb_bcompare : forall x y : f64, Bleb x y = match Bcompare x y with Some (Lt|Eq) => true | _ => false end.
Proof. reflexivity. Qed.
Lemma beqb_bcompare : forall x y : f64, Beqb x y = match Bcompare x y with Some Eq => true | _ => false end.
Proof. reflexivity. Qed.

(** Decision of the comparisons by the keys. *)
Lemma leb_key : forall x y, isnan x = false -> isnan y = false ->
  (nleb x y = true <-> key x <= key y).
Proof.
  intros x y Hx Hy. cbn [nleb Num_f64]. rewrite bleb_bcompare, bcompare_key by assumption.
  destruct (Rcompare_spec (key x) (key y)); split; intros; try discriminate; try reflexivity; lra.
Qed.
Lemma ltb_key : forall x y, isnan x = false -> isnan y = false ->
  (nltb x y = true <-> key x < key y).
Proof.
  intros x y Hx Hy. cbn [nltb Num_f64]. rewrite bltb_bcompare, bcompare_key by assumption.
  destruct (Rcompare_spec (key x) (key y)); split; intros; try discriminate; try reflexivity; lra.
Qed.
Lemma ltb_key_false : forall x y, isnan x = false -> isnan y = false ->
  (nltb x y = false <-> key y <= key x).
Proof.
  intros x y Hx Hy. cbn [nltb Num_f64]. rewrite bltb_bcompare, bcompare_key by assumption.
  destruct (Rcompare_spec (key x) (key y)); split; intros; try discriminate; try reflexivity; lra.
Qed.
Lemma leb_key_false : forall x y, isnan x = false -> isnan y = false ->
  (nleb x y = false <-> key y < key x).
Proof.
  intros x y Hx Hy. cbn [nleb Num_f64]. rewrite bleb_bcompare, bcompare_key by assumption.
  destruct (Rcompare_spec (key x) (key y)); split; intros; try discriminate; try reflexivity; lra.
Qed.
Lemma eqb_key : forall x y, isnan x = false -> isnan y = false ->
  (neqb x y = true <-> key x = key y).
Proof.
  intros x y Hx Hy. cbn [neqb Num_f64]. rewrite beqb_bcompare, bcompare_key by assumption.
  destruct (Rcompare_spec (key x) (key y)); split; intros; try discriminate; try reflexivity; lra.
Qed.

Lemma ltb_nan : forall x y : f64, isnan x = true \/ isnan y = true -> nltb x y = false.
Proof. intros x y H. cbn [nltb Num_f64]. now rewrite bltb_bcompare, bcompare_nan. Qed.
Lemma leb_nan : forall x y : f64, isnan x = true \/ isnan y = true -> nleb x y = false.
Proof. intros x y H. cbn [nleb Num_f64]. now rewrite bleb_bcompare, bcompare_nan. Qed.
Lemma eqb_nan : forall x y : f64, isnan x = true \/ isnan y = true -> neqb x y = false.
Proof. intros x y H. cbn [neqb Num_f64]. now rewrite beqb_bcompare, bcompare_nan. Qed.

Lemma ltb_true_inv : forall x y : f64, nltb x y = true ->
  isnan x = false /\ isnan y = false /\ key x < key y.
Proof.
  intros x y H. destruct (isnan x) eqn:Ex; [rewrite ltb_nan in H by auto; discriminate|].
  destruct (isnan y) eqn:Ey; [rewrite ltb_nan in H by auto; discriminate|].
  apply ltb_key in H; auto.
Qed.
Lemma leb_true_inv : forall x y : f64, nleb x y = true ->
  isnan x = false /\ isnan y = false /\ key x <= key y.
Proof.
  intros x y H. destruct (isnan x) eqn:Ex; [rewrite leb_nan in H by auto; discriminate|].
  destruct (isnan y) eqn:Ey; [rewrite leb_nan in H by auto; discriminate|].
  apply leb_key in H; auto.
Qed.

Lemma nisnan_f64 : forall x : f64, nisnan x = isnan x.
Proof.
  intros x. unfold nisnan. destruct (isnan x) eqn:E.
  - now rewrite eqb_nan by auto.
  - replace (neqb x x) with true; [reflexivity|]. symmetry. now apply eqb_key.
Qed.

Lemma leb_refl : forall x : f64, isnan x = false -> nleb x x = true.
Proof. intros x H. apply leb_key; auto. lra. Qed.
Lemma leb_trans : forall x y z : f64, nleb x y = true -> nleb y z = true -> nleb x z = true.
Proof.
  intros x y z H1 H2. apply leb_true_inv in H1. apply leb_true_inv in H2.
  apply leb_key; intuition. lra.
Qed.
Lemma ltb_leb : forall x y : f64, nltb x y = true -> nleb x y = true.
Proof. intros x y H. apply ltb_true_inv in H. apply leb_key; intuition. Qed.
Lemma ltb_false_leb : forall x y : f64, isnan x = false -> isnan y = false ->
  nltb x y = false -> nleb y x = true.
Proof. intros x y Hx Hy H. apply leb_key; auto. now apply ltb_key_false in H. Qed.

Lemma abs_nan : forall x : f64, isnan (nabs x) = isnan x.
Proof. intros []; reflexivity. Qed.
Lemma key_abs : forall x : f64, key (nabs x) = Rabs (key x).
Proof.
  intros x. pose proof (bpow_gt_0 radix2 1024).
  destruct x as [s|[]| |s m e He]; cbn [nabs Num_f64 Babs key].
  - symmetry; apply Rabs_R0.
  - rewrite Rabs_Ropp, Rabs_pos_eq; lra.
  - rewrite Rabs_pos_eq; lra.
  - symmetry; apply Rabs_R0.
  - change (B2R (Babs (B754_finite s m e He)) = Rabs (B2R (B754_finite s m e He))).
    apply B2R_Babs.
Qed.
Lemma opp_nan : forall x : f64, isnan (nneg x) = isnan x.
Proof. intros []; reflexivity. Qed.
Lemma key_opp : forall x : f64, key (nneg x) = - key x.
Proof.
  intros x. destruct x as [s|[]| |s m e He]; cbn [nneg Num_f64 Bopp key].
  - symmetry; apply Ropp_0.
  - cbn. lra.
  - reflexivity.
  - symmetry; apply Ropp_0.
  - change (B2R (Bopp (B754_finite s m e He)) = - (B2R (B754_finite s m e He))).
    apply B2R_Bopp.
Qed.
Lemma abs_ge_0 : forall x : f64, 0 <= key (nabs x).
Proof. intros x. rewrite key_abs. apply Rabs_pos. Qed.

(** *** amax *)

Definition amax_step (a b : f64) : f64 :=
  let b := nabs b in if ngeb a b then a else b.

Lemma amax_fold : forall v acc,
  isnan acc = false -> Forall (fun x => isnan x = false) v ->
  let r := fold_left amax_step v acc in
  isnan r = false /\ key acc <= key r /\ Forall (fun x => Rabs (key x) <= key r) v /\
  (r = acc \/ exists x, In x v /\ r = nabs x).
Proof.
  induction v as [|x v IH]; intros acc Ha Hv; cbn [fold_left].
  - cbn. repeat split; auto; lra.
  - inversion Hv as [|? ? Hx Hv']; subst.
    assert (Hs : amax_step acc x = if nleb (nabs x) acc then acc else nabs x) by reflexivity.
    rewrite Hs. cbv zeta in *. destruct (nleb (nabs x) acc) eqn:E.
    + destruct (IH acc Ha Hv') as (H1 & H2 & H3 & H4). fold amax_step in *.
      apply leb_true_inv in E. destruct E as (_ & _ & E). rewrite key_abs in E.
      repeat split; auto.
      * constructor; [lra|auto].
      * destruct H4 as [H4|(y & Hy & H4)]; [auto|right; exists y; split; [right|]; auto].
    + assert (Hb : isnan (nabs x) = false) by now rewrite abs_nan.
      destruct (IH (nabs x) Hb Hv') as (H1 & H2 & H3 & H4).
      apply leb_key_false in E; auto.
      repeat split; auto.
      * lra.
      * constructor; [rewrite <- key_abs; auto|auto].
      * right. destruct H4 as [H4|(y & Hy & H4)]; [exists x|exists y]; split; auto; [left|right]; auto.
Qed.

(** When no entry is NaN, amax is the largest absolute value. *)
Lemma amax_spec : forall v : vec f64,
  Forall (fun x => isnan x = false) v ->
  isnan (amax v) = false /\ Forall (fun x => nleb (nabs x) (amax v) = true) v /\
  (v = [] /\ key (amax v) = 0 \/ exists x, In x v /\ amax v = nabs x).
Proof.
  intros [|x v] Hv.
  - cbn. repeat split; auto.
  - inversion Hv as [|? ? Hx Hv']; subst.
    assert (Hb : isnan (nabs x) = false) by now rewrite abs_nan.
    destruct (amax_fold v (nabs x) Hb Hv') as (H1 & H2 & H3 & H4).
    cbn [amax]. change (fun a b => let b := nabs b in if ngeb a b then a else b) with amax_step.
    set (r := fold_left amax_step v (nabs x)) in *.
    split; [exact H1|]. split.
    + constructor.
      * apply leb_key; auto.
      * rewrite Forall_forall in *. intros y Hy. apply leb_key; auto.
        -- rewrite abs_nan. auto.
        -- rewrite key_abs. auto.
    + right. destruct H4 as [H4|(y & Hy & H4)]; [exists x|exists y]; split; auto; [left|right]; auto.
Qed.
