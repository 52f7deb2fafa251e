(** Facts on [f64::min], [f64::max], [f64::signum] and the step limitation. *)
From Coq Require Import Reals Lra.
From Flocq Require Import Core BinarySingleNaN.
From Verif Require Import Base Num Linalg Iteratives F64 F64Facts F64Arith.
Open Scope R_scope.

Lemma key_sf : forall (x : f64) s m e, B2SF x = SpecFloat.S754_finite s m e ->
  key x = F2R (Float radix2 (cond_Zopp s (Zpos m)) e).
Proof. intros x s m e H. destruct x; try discriminate. injection H as -> -> ->. reflexivity. Qed.

Lemma key_n0 : key n0 = 0.
Proof. rewrite key_fin by reflexivity. rewrite <- SF2R_B2SF. vm_compute (B2SF _). reflexivity. Qed.
Lemma nan_n0 : isnan (n0 : f64) = false.
Proof. vm_compute. reflexivity. Qed.
Lemma key_n1 : key n1 = 1.
Proof.
  rewrite (key_sf n1 false 4503599627370496 (-52)) by (vm_compute; reflexivity).
  unfold F2R. cbn. lra.
Qed.
Lemma key_n2 : key n2 = 2.
Proof.
  rewrite (key_sf n2 false 4503599627370496 (-51)) by (vm_compute; reflexivity).
  unfold F2R. cbn. lra.
Qed.
Lemma one_n1 : f64_one = n1.
Proof. apply B2SF_inj. vm_compute. reflexivity. Qed.

Lemma key_nonneg_sign : forall x : f64, isnan x = false -> 0 < key x -> Bsign x = false.
Proof.
  intros x Hn H. destruct (Bsign x) eqn:E; [|reflexivity]. exfalso.
  assert (B := bpow_gt_0 radix2 1024).
  destruct (isfin x) eqn:Fx.
  - rewrite key_fin in H by exact Fx. apply sign_neg in E. lra.
  - destruct x as [|[]| |]; try discriminate. cbn [key] in H. lra.
Qed.

(** *** min and max *)
Lemma nmin_nan_l : forall x y : f64, isnan x = true -> nmin x y = y.
Proof. intros x y H. unfold nmin. rewrite nisnan_f64, H. reflexivity. Qed.
Lemma nmin_nan_r : forall x y : f64, isnan x = false -> isnan y = true -> nmin x y = x.
Proof. intros x y Hx H. unfold nmin. rewrite !nisnan_f64, Hx, H. reflexivity. Qed.
Lemma nmax_nan_l : forall x y : f64, isnan x = true -> nmax x y = y.
Proof. intros x y H. unfold nmax. rewrite nisnan_f64, H. reflexivity. Qed.
Lemma nmax_nan_r : forall x y : f64, isnan x = false -> isnan y = true -> nmax x y = x.
Proof. intros x y Hx H. unfold nmax. rewrite !nisnan_f64, Hx, H. reflexivity. Qed.
Lemma nmin_key : forall x y : f64, isnan x = false -> isnan y = false ->
  isnan (nmin x y) = false /\ key (nmin x y) = Rmin (key x) (key y) /\ (nmin x y = x \/ nmin x y = y).
Proof.
  intros x y Hx Hy. unfold nmin. rewrite !nisnan_f64, Hx, Hy.
  destruct (nltb y x) eqn:E.
  - apply ltb_key in E; auto. split; [exact Hy|]. split; [|auto]. rewrite Rmin_right; lra.
  - apply ltb_key_false in E; auto. split; [exact Hx|]. split; [|auto]. rewrite Rmin_left; lra.
Qed.
Lemma nmax_key : forall x y : f64, isnan x = false -> isnan y = false ->
  isnan (nmax x y) = false /\ key (nmax x y) = Rmax (key x) (key y) /\ (nmax x y = x \/ nmax x y = y).
Proof.
  intros x y Hx Hy. unfold nmax. rewrite !nisnan_f64, Hx, Hy.
  destruct (nltb x y) eqn:E.
  - apply ltb_key in E; auto. split; [exact Hy|]. split; [|auto]. rewrite Rmax_right; lra.
  - apply ltb_key_false in E; auto. split; [exact Hx|]. split; [|auto]. rewrite Rmax_left; lra.
Qed.
Lemma nmin_not_nan : forall x y : f64, isnan x = false \/ isnan y = false -> isnan (nmin x y) = false.
Proof.
  intros x y H. destruct (isnan x) eqn:Hx.
  - rewrite nmin_nan_l by exact Hx. now destruct H.
  - destruct (isnan y) eqn:Hy; [rewrite nmin_nan_r by auto; exact Hx|]. now apply nmin_key.
Qed.

(** *** Clamping *)
Lemma clamp_box : forall a mn mx : f64, isnan mn = false -> isnan mx = false -> key mn <= key mx ->
  isnan (nmin (nmax a mn) mx) = false /\
  key mn <= key (nmin (nmax a mn) mx) <= key mx.
Proof.
  intros a mn mx Hn Hx Hle. destruct (isnan a) eqn:Ha.
  - rewrite nmax_nan_l by exact Ha. destruct (nmin_key mn mx Hn Hx) as (H1 & H2 & _).
    split; [exact H1|]. rewrite H2, Rmin_left by lra. lra.
  - destruct (nmax_key a mn Ha Hn) as (H1 & H2 & _).
    destruct (nmin_key (nmax a mn) mx H1 Hx) as (H3 & H4 & _).
    split; [exact H3|]. rewrite H4, H2. unfold Rmin, Rmax.
    destruct (Rle_dec (key a) (key mn)); destruct (Rle_dec _ (key mx)); lra.
Qed.
Lemma clamp_key : forall a mn mx : f64, isnan a = false -> isnan mn = false -> isnan mx = false ->
  key (nmin (nmax a mn) mx) = Rmin (Rmax (key a) (key mn)) (key mx).
Proof.
  intros a mn mx Ha Hn Hx. destruct (nmax_key a mn Ha Hn) as (H1 & H2 & _).
  destruct (nmin_key (nmax a mn) mx H1 Hx) as (_ & H4 & _). congruence.
Qed.

(** *** Products *)
Lemma one_correct : B2R (f64_one : f64) = 1 /\ isfin f64_one = true /\ Bsign f64_one = false.
Proof.
  split; [apply Bone_correct|]. split; [reflexivity|]. reflexivity.
Qed.

Lemma mul_one : forall c : f64, isnan c = false -> nmul c f64_one = c.
Proof.
  intros c Hc. destruct (isfin c) eqn:Fc.
  - destruct one_correct as (O1 & O2 & O3).
    assert (H := Bmult_correct _ _ _ _ mode_NE c f64_one). rewrite O1, Rmult_1_r in H.
    change (round_mode mode_NE) with ZnearestE in H. fold (rnd (B2R c)) in H. rewrite rnd_fin in H.
    rewrite Rlt_bool_true in H by (apply abs_B2R_lt_emax).
    destruct H as (H1 & H2 & H3). rewrite Fc, O2 in H2. cbn [andb] in H2.
    cbn [nmul Num_f64]. apply B2R_Bsign_inj; auto.
    rewrite H3 by (apply fin_not_nan; exact H2). rewrite O3. apply xorb_false_r.
  - destruct c as [|s| |]; try discriminate. cbn. destruct s; reflexivity.
Qed.
Lemma mul_mone : forall c : f64, isnan c = false -> nmul c (nneg f64_one) = nneg c.
Proof.
  intros c Hc. destruct (isfin c) eqn:Fc.
  - destruct one_correct as (O1 & O2 & O3).
    assert (H := Bmult_correct _ _ _ _ mode_NE c (Bopp f64_one)).
    rewrite B2R_Bopp, O1 in H. replace (B2R c * - (1)) with (B2R (Bopp c)) in H by (rewrite B2R_Bopp; ring).
    change (round_mode mode_NE) with ZnearestE in H. fold (rnd (B2R (Bopp c))) in H. rewrite rnd_fin in H.
    rewrite Rlt_bool_true in H by (apply abs_B2R_lt_emax).
    destruct H as (H1 & H2 & H3). rewrite Fc, is_finite_Bopp, O2 in H2. cbn [andb] in H2.
    cbn [nmul nneg Num_f64]. apply B2R_Bsign_inj; auto.
    + rewrite is_finite_Bopp. exact Fc.
    + rewrite H3 by (apply fin_not_nan; exact H2).
      rewrite !Bsign_Bopp by (auto; reflexivity). rewrite O3. apply xorb_true_r.
  - destruct c as [|s| |]; try discriminate. cbn. destruct s; reflexivity.
Qed.

Lemma signum_cases : forall s : f64, isnan s = false ->
  (nsignum s = f64_one /\ 0 <= key s /\ Bsign s = false) \/
  (nsignum s = nneg f64_one /\ key s <= 0 /\ Bsign s = true).
Proof.
  intros s H. cbn [nsignum nneg Num_f64]. unfold f64_signum.
  destruct (Bsign s) eqn:E.
  - right. split; [destruct s; try discriminate; reflexivity|]. split; [|reflexivity].
    destruct (isfin s) eqn:Fs; [rewrite key_fin by exact Fs; now apply sign_neg|].
    destruct s as [|[]| |]; try discriminate. cbn [key]. left. apply Ropp_lt_gt_0_contravar, bpow_gt_0.
  - left. split; [destruct s; try discriminate; reflexivity|]. split; [|reflexivity].
    destruct (isfin s) eqn:Fs; [rewrite key_fin by exact Fs; now apply sign_pos|].
    destruct s as [|[]| |]; try discriminate. cbn [key]. left. apply bpow_gt_0.
Qed.

Lemma abs_mul_signum : forall s : f64, isnan s = false -> nmul (nabs s) (nsignum s) = s.
Proof.
  intros s H. destruct (signum_cases s H) as [(-> & _ & Hs)|(-> & _ & Hs)].
  - rewrite mul_one by (rewrite abs_nan; exact H). destruct s; cbn in *; subst; reflexivity.
  - rewrite mul_mone by (rewrite abs_nan; exact H). destruct s; cbn in *; subst; reflexivity.
Qed.

Lemma mul_nan_inv : forall x y : f64, isnan (nmul x y) = false -> isnan x = false /\ isnan y = false.
Proof. intros [] [] H; split; try reflexivity; discriminate. Qed.

(** A product of nonnegative numbers is not negative. *)
Lemma mul_nonneg : forall x y : f64, isnan (nmul x y) = false -> 0 <= key x -> 0 <= key y ->
  0 <= key (nmul x y).
Proof.
  intros x y Hn Hx Hy. destruct (mul_nan_inv x y Hn) as (Nx & Ny). destruct (isfin x) eqn:Fx, (isfin y) eqn:Fy.
  - destruct (mul_fin x y Fx Fy) as (_ & ->). pose proof big_pos.
    rewrite <- (sat_id 0) by (rewrite Rabs_R0; lra). apply sat_le. apply rnd_ge0. nra.
  - clear -Hn Hx Hy Fy Fx Nx Ny. assert (B := bpow_gt_0 radix2 1024).
    destruct y as [|[]| |]; try discriminate; [cbn [key] in Hy; lra|].
    destruct x as [s|s| |s m e He]; try discriminate. destruct s; [|cbn [nmul Num_f64 Bmult xorb key]; lra].
    exfalso. cbn [key] in Hx. assert (B2R (B754_finite true m e He) < 0) by (apply F2R_lt_0; cbn; lia). lra.
  - clear -Hn Hx Hy Fy Fx Nx Ny. assert (B := bpow_gt_0 radix2 1024).
    destruct x as [|[]| |]; try discriminate; [cbn [key] in Hx; lra|].
    destruct y as [s|s| |s m e He]; try discriminate. destruct s; [|cbn [nmul Num_f64 Bmult xorb key]; lra].
    exfalso. cbn [key] in Hy. assert (B2R (B754_finite true m e He) < 0) by (apply F2R_lt_0; cbn; lia). lra.
  - clear -Hn Hx Hy Fy Fx Nx Ny. assert (B := bpow_gt_0 radix2 1024).
    destruct x as [|[]| |]; try discriminate; destruct y as [|[]| |]; try discriminate;
      cbn [key] in *; try lra; cbn [nmul Num_f64 Bmult xorb key]; lra.
Qed.

(** *** Addition *)
Lemma add_zero_key : forall x y : f64, isnan x = false -> isnan y = false -> key y = 0 -> isnan (nadd x y) = false /\ key (nadd x y) = key x.
Proof.
  intros x y Hx Hy Hk.
  assert (Fy : isfin y = true).
  { destruct y as [|[]| |]; try discriminate; try reflexivity; cbn [key] in Hk;
      assert (B := bpow_gt_0 radix2 1024); lra. }
  destruct (isfin x) eqn:Fx.
  - destruct (add_fin x y Fx Fy) as (H1 & H2). split; [exact H1|]. rewrite H2, Hk, Rplus_0_r.
    rewrite (key_fin x Fx), rnd_fin. apply sat_id. left. apply abs_B2R_lt_emax.
  - destruct x as [|s| |]; try discriminate. destruct y; try discriminate; split; reflexivity.
Qed.

(** A sum is NaN only for infinities of opposite signs. *)
Lemma add_not_nan : forall x y : f64, isnan x = false -> isnan y = false ->
  isfin x = true \/ isfin y = true -> isnan (nadd x y) = false.
Proof.
  intros x y Hx Hy H. destruct (isfin x) eqn:Fx, (isfin y) eqn:Fy.
  - now apply add_fin.
  - destruct x; try discriminate; destruct y; try discriminate; reflexivity.
  - destruct x; try discriminate; destruct y; try discriminate; reflexivity.
  - destruct H; discriminate.
Qed.
