(** Arithmetic of binary64 numbers in terms of the reals. *)
From Coq Require Import Reals Lra.
From Flocq Require Import Core BinarySingleNaN.
From Verif Require Import Base Num Linalg F64 F64Facts.
Open Scope R_scope.

Definition rnd (r : R) : R := round radix2 (SpecFloat.fexp 53 1024) ZnearestE r.
Definition big : R := bpow radix2 1024.
(** Saturation at the overflow threshold. *)
Definition sat (r : R) : R := Rmax (- big) (Rmin big r).

#[global] Instance valid64 : Valid_exp (SpecFloat.fexp 53 1024).
Proof. apply fexp_correct. reflexivity. Qed.

Lemma big_pos : 0 < big.
Proof. apply bpow_gt_0. Qed.

Lemma rnd_le : forall a b, a <= b -> rnd a <= rnd b.
Proof. intros. apply round_le; auto with typeclass_instances. Qed.
Lemma rnd_0 : rnd 0 = 0.
Proof. apply round_0. auto with typeclass_instances. Qed.
Lemma rnd_opp : forall a, rnd (- a) = - rnd a.
Proof. intros. unfold rnd. now rewrite round_NE_opp. Qed.
Lemma rnd_abs : forall a, Rabs (rnd a) = rnd (Rabs a).
Proof. intros. unfold rnd. symmetry. apply round_NE_abs. apply valid64. Qed.
Lemma rnd_fin : forall x : f64, rnd (B2R x) = B2R x.
Proof. intros x. apply round_generic; auto with typeclass_instances. apply generic_format_B2R. Qed.
Lemma rnd_ge0 : forall a, 0 <= a -> 0 <= rnd a.
Proof. intros a H. rewrite <- rnd_0. now apply rnd_le. Qed.
Lemma rnd_le0 : forall a, a <= 0 -> rnd a <= 0.
Proof. intros a H. rewrite <- rnd_0. now apply rnd_le. Qed.

Lemma sat_le : forall a b, a <= b -> sat a <= sat b.
Proof.
  intros a b H. unfold sat. apply Rle_max_compat_l. now apply Rle_min_compat_l.
Qed.
Lemma sat_id : forall a, Rabs a <= big -> sat a = a.
Proof.
  intros a H. unfold sat. apply Rabs_le_inv in H. rewrite Rmin_right by lra. apply Rmax_right. lra.
Qed.
Lemma sat_big : forall a, big <= a -> sat a = big.
Proof.
  intros a H. pose proof big_pos. unfold sat. rewrite Rmin_left by lra. apply Rmax_right. lra.
Qed.
Lemma sat_nbig : forall a, a <= - big -> sat a = - big.
Proof.
  intros a H. pose proof big_pos. unfold sat. rewrite Rmin_right by lra. apply Rmax_left. lra.
Qed.
Lemma sat_opp : forall a, sat (- a) = - sat a.
Proof.
  intros a. pose proof big_pos. unfold sat, Rmax, Rmin.
  repeat destruct (Rle_dec _ _); lra.
Qed.

Lemma sf_infinity : forall (x : f64) s, B2SF x = SpecFloat.S754_infinity s -> x = B754_infinity s.
Proof. intros x s H. destruct x; try discriminate. now injection H as ->. Qed.

Lemma sign_neg : forall x : f64, Bsign x = true -> B2R x <= 0.
Proof.
  intros [s|s| |s m e He] H; cbn in *; try lra; subst.
  change (B2R (B754_finite true m e He) <= 0). unfold B2R.
  apply F2R_le_0. cbn. lia.
Qed.
Lemma sign_pos : forall x : f64, Bsign x = false -> 0 <= B2R x.
Proof.
  intros [s|s| |s m e He] H; cbn in *; try lra; subst.
  apply F2R_ge_0. cbn. lia.
Qed.

(** *** Sum and difference of finite numbers *)
Lemma add_fin : forall x y : f64, isfin x = true -> isfin y = true ->
  isnan (nadd x y) = false /\ key (nadd x y) = sat (rnd (key x + key y)).
Proof.
  intros x y Fx Fy. assert (H := Bplus_correct _ _ _ _ mode_NE x y Fx Fy).
  rewrite (key_fin x Fx), (key_fin y Fy). cbn [nadd Num_f64].
  change (round_mode mode_NE) with ZnearestE in H. fold (rnd (B2R x + B2R y)) in H.
  destruct (Rlt_bool_spec (Rabs (rnd (B2R x + B2R y))) (bpow radix2 1024)) as [Hb|Hb].
  - destruct H as (H1 & H2 & _). split; [destruct (Bplus mode_NE x y); try discriminate; reflexivity|].
    rewrite key_fin by exact H2. rewrite H1. symmetry. apply sat_id. unfold big. lra.
  - destruct H as (H1 & H2). apply sf_infinity in H1. rewrite H1. split; [reflexivity|].
    destruct (Bsign x) eqn:Sx; cbn [key].
    + symmetry in H2. apply sign_neg in Sx, H2. rewrite sat_nbig; [reflexivity|].
      rewrite Rabs_left1 in Hb by (apply rnd_le0; lra). unfold big. lra.
    + symmetry in H2. apply sign_pos in Sx, H2. rewrite sat_big; [reflexivity|].
      rewrite Rabs_pos_eq in Hb by (apply rnd_ge0; lra). unfold big. lra.
Qed.

Lemma sub_add : forall x y : f64, isnan x = false -> isnan y = false ->
  nsub x y = nadd x (nneg y).
Proof.
  intros x y Hx Hy. destruct x as [|[]| |], y as [|[]| |]; try discriminate; try reflexivity;
    cbn; repeat match goal with s : bool |- _ => destruct s end; reflexivity.
Qed.
Lemma opp_fin : forall x : f64, isfin (nneg x) = isfin x.
Proof. intros []; reflexivity. Qed.
Lemma fin_not_nan : forall x : f64, isfin x = true -> isnan x = false.
Proof. intros []; easy. Qed.

Lemma sub_fin : forall x y : f64, isfin x = true -> isfin y = true ->
  isnan (nsub x y) = false /\ key (nsub x y) = sat (rnd (key x - key y)).
Proof.
  intros x y Fx Fy. rewrite sub_add by now apply fin_not_nan.
  replace (key x - key y) with (key x + key (nneg y)) by (rewrite key_opp; ring).
  apply add_fin; [|rewrite opp_fin]; assumption.
Qed.

Lemma mul_fin : forall x y : f64, isfin x = true -> isfin y = true ->
  isnan (nmul x y) = false /\ key (nmul x y) = sat (rnd (key x * key y)).
Proof.
  intros x y Fx Fy. assert (H := Bmult_correct _ _ _ _ mode_NE x y).
  rewrite (key_fin x Fx), (key_fin y Fy). cbn [nmul Num_f64].
  change (round_mode mode_NE) with ZnearestE in H. fold (rnd (B2R x * B2R y)) in H.
  destruct (Rlt_bool_spec (Rabs (rnd (B2R x * B2R y))) (bpow radix2 1024)) as [Hb|Hb].
  - destruct H as (H1 & H2 & _). rewrite Fx, Fy in H2.
    split; [apply fin_not_nan; exact H2|].
    rewrite key_fin by exact H2. rewrite H1. symmetry. apply sat_id. unfold big. lra.
  - apply sf_infinity in H. rewrite H. split; [reflexivity|].
    destruct (Bsign x) eqn:Sx, (Bsign y) eqn:Sy; cbn [key xorb];
      try apply sign_neg in Sx; try apply sign_pos in Sx;
      try apply sign_neg in Sy; try apply sign_pos in Sy.
    + assert (0 <= B2R x * B2R y) by nra. rewrite sat_big; [reflexivity|].
      rewrite Rabs_pos_eq in Hb by (apply rnd_ge0; lra). unfold big. lra.
    + assert (B2R x * B2R y <= 0) by nra. rewrite sat_nbig; [reflexivity|].
      rewrite Rabs_left1 in Hb by (apply rnd_le0; lra). unfold big. lra.
    + assert (B2R x * B2R y <= 0) by nra. rewrite sat_nbig; [reflexivity|].
      rewrite Rabs_left1 in Hb by (apply rnd_le0; lra). unfold big. lra.
    + assert (0 <= B2R x * B2R y) by nra. rewrite sat_big; [reflexivity|].
      rewrite Rabs_pos_eq in Hb by (apply rnd_ge0; lra). unfold big. lra.
Qed.

Lemma div_sign : forall a b, b <> 0 -> (0 <= a /\ 0 <= b \/ a <= 0 /\ b <= 0) -> 0 <= a / b.
Proof.
  intros a b Hb [(Ha & Hb')|(Ha & Hb')].
  - apply Rmult_le_pos; [lra|]. left. apply Rinv_0_lt_compat. lra.
  - unfold Rdiv. replace (a * / b) with ((- a) * / - b) by (field; lra).
    apply Rmult_le_pos; [lra|]. left. apply Rinv_0_lt_compat. lra.
Qed.
Lemma div_fin : forall x y : f64, isfin x = true -> isfin y = true -> key y <> 0 ->
  isnan (ndiv x y) = false /\ key (ndiv x y) = sat (rnd (key x / key y)).
Proof.
  intros x y Fx Fy Hy. rewrite (key_fin y Fy) in *. rewrite (key_fin x Fx).
  assert (H := Bdiv_correct _ _ _ _ mode_NE x y Hy). cbn [ndiv Num_f64].
  change (round_mode mode_NE) with ZnearestE in H. fold (rnd (B2R x / B2R y)) in H.
  destruct (Rlt_bool_spec (Rabs (rnd (B2R x / B2R y))) (bpow radix2 1024)) as [Hb|Hb].
  - destruct H as (H1 & H2 & _). rewrite Fx in H2.
    split; [apply fin_not_nan; exact H2|].
    rewrite key_fin by exact H2. rewrite H1. symmetry. apply sat_id. unfold big. lra.
  - apply sf_infinity in H. rewrite H. split; [reflexivity|].
    assert (Hop : - B2R x / B2R y = - (B2R x / B2R y)) by (unfold Rdiv; ring).
    destruct (Bsign x) eqn:Sx, (Bsign y) eqn:Sy; cbn [key xorb];
      try apply sign_neg in Sx; try apply sign_pos in Sx;
      try apply sign_neg in Sy; try apply sign_pos in Sy.
    + assert (0 <= B2R x / B2R y) by (apply div_sign; auto). rewrite sat_big; [reflexivity|].
      rewrite Rabs_pos_eq in Hb by (apply rnd_ge0; lra). unfold big. lra.
    + assert (0 <= - B2R x / B2R y) by (apply div_sign; [auto|left; lra]).
      rewrite sat_nbig; [reflexivity|].
      rewrite Rabs_left1 in Hb by (apply rnd_le0; lra). unfold big. lra.
    + assert (0 <= - B2R x / B2R y) by (apply div_sign; [auto|right; lra]).
      rewrite sat_nbig; [reflexivity|].
      rewrite Rabs_left1 in Hb by (apply rnd_le0; lra). unfold big. lra.
    + assert (0 <= B2R x / B2R y) by (apply div_sign; auto). rewrite sat_big; [reflexivity|].
      rewrite Rabs_pos_eq in Hb by (apply rnd_ge0; lra). unfold big. lra.
Qed.

(** *** Equality of numbers from their keys *)
Lemma key_inj_abs : forall x y : f64, isnan x = false -> isnan y = false ->
  key (nabs x) = key (nabs y) -> nabs x = nabs y.
Proof.
  intros x y Hx Hy H. pose proof big_pos.
  destruct (isfin x) eqn:Fx, (isfin y) eqn:Fy.
  - assert (Fax : isfin (nabs x) = true) by (destruct x; easy).
    assert (Fay : isfin (nabs y) = true) by (destruct y; easy).
    rewrite !key_fin in H by assumption.
    apply B2R_Bsign_inj; auto. destruct x, y; try discriminate; reflexivity.
  - assert (Fax : isfin (nabs x) = true) by (destruct x; easy).
    pose proof (key_bound _ Fax). destruct y as [|[]| |]; try discriminate; cbn [key nabs Num_f64 Babs] in *; fold big in *; cbn [key] in *; lra.
  - assert (Fay : isfin (nabs y) = true) by (destruct y; easy).
    pose proof (key_bound _ Fay). destruct x as [|[]| |]; try discriminate; cbn [key nabs Num_f64 Babs] in *; fold big in *; cbn [key] in *; lra.
  - destruct x as [|[]| |], y as [|[]| |]; try discriminate; reflexivity.
Qed.

(** Commutativity and antisymmetry. *)
Lemma add_comm : forall x y : f64, nadd x y = nadd y x.
Proof.
  intros x y. destruct (isfin x) eqn:Fx, (isfin y) eqn:Fy.
  - assert (H1 := Bplus_correct _ _ _ _ mode_NE x y Fx Fy).
    assert (H2 := Bplus_correct _ _ _ _ mode_NE y x Fy Fx).
    rewrite (Rplus_comm (B2R y)) in H2. cbn [nadd Num_f64].
    destruct (Rlt_bool _ _).
    + destruct H1 as (A1 & A2 & A3), H2 as (B1 & B2 & B3).
      apply B2R_Bsign_inj; auto; [congruence|]. rewrite A3, B3. rewrite (andb_comm (Bsign y)). reflexivity.
    + destruct H1 as (A1 & A2), H2 as (B1 & B2). apply B2SF_inj. congruence.
  - destruct x as [|[]| |], y as [|[]| |]; try discriminate; reflexivity.
  - destruct x as [|[]| |], y as [|[]| |]; try discriminate; reflexivity.
  - destruct x as [|[]| |], y as [|[]| |]; try discriminate; reflexivity.
Qed.

Lemma sub_swap_abs : forall x y : f64, nabs (nsub x y) = nabs (nsub y x).
Proof.
  intros x y. destruct (isfin x) eqn:Fx, (isfin y) eqn:Fy.
  - destruct (sub_fin x y Fx Fy) as (H1 & H2). destruct (sub_fin y x Fy Fx) as (H3 & H4).
    apply key_inj_abs; auto. rewrite !key_abs, H2, H4.
    replace (key y - key x) with (- (key x - key y)) by ring.
    now rewrite rnd_opp, sat_opp, Rabs_Ropp.
  - destruct x as [|[]| |], y as [|[]| |]; try discriminate; reflexivity.
  - destruct x as [|[]| |], y as [|[]| |]; try discriminate; reflexivity.
  - destruct x as [|[]| |], y as [|[]| |]; try discriminate; reflexivity.
Qed.

(** The absolute value of a quotient only depends on the absolute value of the
    numerator. *)
Lemma abs_eq_cases : forall x x' : f64, nabs x = nabs x' -> x' = x \/ x' = nneg x.
Proof.
  intros [s|s| |s m e He] [s'|s'| |s' m' e' He'] H; try discriminate; auto.
  - destruct s, s'; auto.
  - destruct s, s'; auto.
  - cbn in H. injection H as <- <-.
    rewrite (Eqdep_dec.UIP_dec Bool.bool_dec He' He).
    destruct s, s'; auto; right; cbn; f_equal; apply Eqdep_dec.UIP_dec, Bool.bool_dec.
Qed.
Lemma abs_fin : forall x : f64, isfin (nabs x) = isfin x.
Proof. intros []; reflexivity. Qed.
Lemma opp_div_abs : forall x y : f64, nabs (ndiv (nneg x) y) = nabs (ndiv x y).
Proof.
  intros x y. destruct (isfin x) eqn:Fx.
  - destruct y as [sy|sy| |sy my ey Hy].
    + destruct x; try discriminate; reflexivity.
    + destruct x; try discriminate; reflexivity.
    + destruct x; try discriminate; reflexivity.
    + assert (Fy : isfin (B754_finite sy my ey Hy) = true) by reflexivity.
      assert (Hk : key (B754_finite sy my ey Hy) <> 0).
      { rewrite key_fin by reflexivity. cbn [B2R]. destruct sy; cbn [SpecFloat.cond_Zopp].
        - apply Rlt_not_eq. apply F2R_lt_0. cbn. lia.
        - apply Rgt_not_eq. apply F2R_gt_0. cbn. lia. }
      assert (Fox : isfin (nneg x) = true) by now rewrite opp_fin.
      destruct (div_fin _ _ Fox Fy Hk) as (H1 & H2). destruct (div_fin _ _ Fx Fy Hk) as (H3 & H4).
      apply key_inj_abs; auto. rewrite !key_abs, H2, H4, key_opp.
      unfold Rdiv. rewrite Ropp_mult_distr_l_reverse, rnd_opp, sat_opp. apply Rabs_Ropp.
  - destruct x as [|[]| |], y as [|[]| |]; try discriminate; reflexivity.
Qed.
Lemma div_abs_num : forall x x' y : f64, nabs x = nabs x' -> nabs (ndiv x y) = nabs (ndiv x' y).
Proof.
  intros x x' y H. destruct (abs_eq_cases x x' H) as [->| ->]; [reflexivity|].
  symmetry. apply opp_div_abs.
Qed.

(** *** Monotonicity of the sum *)
Lemma add_mono : forall v a b : f64,
  nleb a b = true -> isnan (nadd v a) = false -> isnan (nadd v b) = false ->
  nleb (nadd v a) (nadd v b) = true.
Proof.
  intros v a b H Ha Hb. apply leb_true_inv in H. destruct H as (Na & Nb & H).
  apply leb_key; auto.
  pose proof big_pos. destruct (isfin v) eqn:Fv.
  - destruct (isfin a) eqn:Fa, (isfin b) eqn:Fb.
    + destruct (add_fin v a Fv Fa) as (_ & ->). destruct (add_fin v b Fv Fb) as (_ & ->).
      apply sat_le, rnd_le. lra.
    + assert (Hb' : b = B754_infinity false).
      { destruct b as [|[]| |]; try discriminate; [|reflexivity].
        pose proof (key_bound _ Fa). cbn [key] in H. lra. }
      subst b. replace (nadd v (B754_infinity false)) with (B754_infinity false : f64)
        by (destruct v as [|[]| |]; try discriminate; reflexivity).
      destruct (add_fin v a Fv Fa) as (_ & ->). unfold sat. fold big.
      cbn [key]. fold big. apply Rmax_lub; [lra|apply Rmin_l].
    + assert (Ha' : a = B754_infinity true).
      { destruct a as [|[]| |]; try discriminate; [reflexivity|].
        pose proof (key_bound _ Fb). cbn [key] in H. lra. }
      subst a. replace (nadd v (B754_infinity true)) with (B754_infinity true : f64)
        by (destruct v as [|[]| |]; try discriminate; reflexivity).
      destruct (add_fin v b Fv Fb) as (_ & ->). unfold sat. cbn [key]. fold big. apply Rmax_l.
    + destruct v as [|[]| |], a as [|[]| |], b as [|[]| |]; try discriminate; cbn [key nadd Num_f64 Bplus eqb] in *; unfold big in *; try discriminate; lra.
  - destruct v as [|[]| |], a as [|[]| |], b as [|[]| |]; try discriminate; cbn [key nadd Num_f64 Bplus eqb] in *; unfold big in *; try discriminate; lra.
Qed.
