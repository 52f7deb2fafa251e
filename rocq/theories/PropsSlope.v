(** How close the finite-difference jacobian is to the derivatives, on doubles,
    with the default perturbations (C88). *)
From Coq Require Import Reals Lra Psatz.
From Flocq Require Import Core BinarySingleNaN Plus_error Relative.
From Verif Require Import Base Num Linalg Residuals Iteratives UserModel Jacobian Solver Spec
  F64 F64Facts F64Arith LimitFacts Samples ResidualFacts VerdictFacts PropsStep PropsNorm PropsFD
  PropsPoints PropsSim PropsPanic PropsDefault PropsAccuracy.
Open Scope R_scope.

(** The rounded sum of two doubles, with its relative error. *)
Lemma sum_error : forall x y, fmt x -> fmt y -> Rabs (rnd (x + y) - (x + y)) <= u53 * Rabs (x + y).
Proof.
  intros x y Fx Fy.
  destruct (FLT_plus_error_N_ex radix2 (-1074) 53 (fun z => negb (Z.even z)) x y Fx Fy) as (e & He & E).
  change (rnd (x + y) = (x + y) * (1 + e)) in E; rewrite E.
  replace ((x + y) * (1 + e) - (x + y)) with (e * (x + y)) by ring.
  rewrite Rabs_mult; apply Rmult_le_compat_r; [apply Rabs_pos|].
  rewrite u_ro_53 in He; eapply Rle_trans; [exact He|]; assert (P := u53_small).
  apply Rmult_le_reg_r with (1 + u53); [lra|].
  unfold Rdiv; rewrite Rmult_assoc, Rinv_l by lra; nra.
Qed.

Notation dflt := (compute_perturbation default_iterative_params_fd).

(** Up to 2^1023, the default perturbation is finite, at least 2^-25, and the
    displacement it causes is the perturbation to within one part in 2^27. *)
Lemma displacement : forall x : f64, isfin x = true -> Rabs (key x) <= bpow radix2 1022 ->
  isfin (dflt x) = true /\ bpow radix2 (-25) <= key (dflt x) /\ isfin (nadd x (dflt x)) = true /\
  Rabs (key (nadd x (dflt x)) - key x - key (dflt x)) <= bpow radix2 (-27) * key (dflt x).
Proof.
  intros x Fx Bx; destruct default_dx as (Fk & K1 & K2).
  set (k := (ndec 5 100000000 : f64)) in *.
  assert (Fax : isfin (nabs x) = true) by (rewrite abs_fin; exact Fx).
  destruct (mul_fin (nabs x) k Fax Fk) as (Nm & Km); rewrite key_abs in Km.
  assert (Hd : isnan (dflt x) = false /\ key (dflt x) = Rmax (key k) (key (nmul (nabs x) k))).
  { unfold compute_perturbation, default_iterative_params_fd; cbn [fd_method fd_dx_abs fd_dx_rel].
    destruct (nmax_key k (nmul (nabs x) k) (fin_not_nan _ Fk) Nm) as (H1 & H2 & _); split; assumption. }
  destruct Hd as (Nd & Kd); set (d := dflt x) in *.
  assert (P25 : 0 < bpow radix2 (-25)) by apply bpow_gt_0.
  assert (US := u53_small); assert (Px := Rabs_pos (key x)).
  assert (E22 : 4 * bpow radix2 1022 = big).
  { unfold big; change 4 with (bpow radix2 2); now rewrite <- bpow_plus. }
  assert (L22 : 1 <= bpow radix2 1022) by (change 1 with (bpow radix2 0); apply bpow_le; lia).
  set (p := Rabs (key x) * key k) in *.
  assert (Pp : 0 <= p <= Rabs (key x)) by (unfold p; split; nra).
  assert (Rp : 0 <= rnd p <= bpow radix2 1022).
  { split; [apply rnd_ge0; lra|].
    rewrite <- (rnd_format (bpow radix2 1022)) by (apply generic_format_bpow; unfold FLT_exp; lia).
    apply rnd_le; lra. }
  rewrite sat_id in Km by (apply Rabs_le; lra).
  assert (D1 : bpow radix2 (-25) <= key d) by (rewrite Kd; eapply Rle_trans; [exact K1|apply Rmax_l]).
  assert (D2 : key d <= bpow radix2 1022).
  { rewrite Kd, Km; apply Rmax_lub; lra. }
  assert (Fd : isfin d = true).
  { apply key_finite; [exact Nd|]; apply Rabs_def1; lra. }
  (* |x| is at most 2^25 times the perturbation *)
  assert (X : Rabs (key x) <= bpow radix2 25 * (key d * (1 + 2 * u53))).
  { assert (E25 : bpow radix2 25 * bpow radix2 (-25) = 1) by (rewrite <- bpow_plus; reflexivity).
    assert (Q25 : 0 < bpow radix2 25) by apply bpow_gt_0.
    destruct (Rle_or_lt (Rabs (key x)) 1) as [C|C].
    - apply Rle_trans with (bpow radix2 25 * bpow radix2 (-25)); [lra|].
      apply Rmult_le_compat_l; [lra|nra].
    - assert (Q : p <= rnd p * (1 + 2 * u53)).
      { apply rnd_below; [| |lra].
        - rewrite <- Km; apply fmt_key; apply key_finite; [exact Nm|]; rewrite Km; apply Rabs_def1; lra.
        - rewrite <- (rnd_format (bpow radix2 (-1022))) by (apply generic_format_bpow; unfold FLT_exp; lia).
          apply rnd_le; apply Rle_trans with (bpow radix2 (-25)); [apply bpow_le; lia|].
          unfold p; nra. }
      assert (Q2 : rnd p <= key d) by (rewrite Kd, Km; apply Rmax_r).
      assert (Q3 : Rabs (key x) * bpow radix2 (-25) <= key d * (1 + 2 * u53)).
      { apply Rle_trans with p; [unfold p; apply Rmult_le_compat_l; lra|].
        eapply Rle_trans; [exact Q|]; apply Rmult_le_compat_r; lra. }
      apply Rmult_le_compat_l with (r := bpow radix2 25) in Q3; [|lra].
      replace (bpow radix2 25 * (Rabs (key x) * bpow radix2 (-25))) with (Rabs (key x)) in Q3
        by (rewrite (Rmult_comm (Rabs (key x))), <- Rmult_assoc, E25; ring).
      exact Q3. }
  destruct (add_fin x d Fx Fd) as (Na & Ka).
  assert (SE := sum_error (key x) (key d) (fmt_key _ Fx) (fmt_key _ Fd)).
  assert (AB : Rabs (key x + key d) <= Rabs (key x) + key d).
  { eapply Rle_trans; [apply Rabs_triang|]; rewrite (Rabs_pos_eq (key d)); lra. }
  assert (RB : Rabs (rnd (key x + key d)) < big).
  { replace (rnd (key x + key d)) with (rnd (key x + key d) - (key x + key d) + (key x + key d)) by ring.
    eapply Rle_lt_trans; [apply Rabs_triang|]; nra. }
  rewrite sat_id in Ka by lra.
  split; [exact Fd|]; split; [exact D1|]; split.
  - apply key_finite; [exact Na|]; rewrite Ka; exact RB.
  - rewrite Ka; replace (rnd (key x + key d) - key x - key d) with (rnd (key x + key d) - (key x + key d)) by ring.
    eapply Rle_trans; [exact SE|].
    assert (E27 : bpow radix2 (-27) = 2 * (u53 * bpow radix2 25)).
    { change 2 with (bpow radix2 1); rewrite <- !bpow_plus; reflexivity. }
    assert (Q25 : 1024 <= bpow radix2 25) by (change 1024 with (bpow radix2 10); apply bpow_le; lia).
    rewrite E27.
    assert (T : Rabs (key x + key d) <= 2 * (bpow radix2 25 * key d)) by nra.
    apply Rmult_le_compat_l with (r := u53) in T; [|lra]; nra.
Qed.

(** The rounded difference quotient. *)
Lemma quotient_error : forall f0 f1 d : f64, isfin f0 = true -> isfin f1 = true -> isfin d = true ->
  bpow radix2 (-25) <= key d -> isfin (ndiv (nsub f1 f0) d) = true ->
  let q := (key f1 - key f0) / key d in
  Rabs (key (ndiv (nsub f1 f0) d) - q) <= 4 * u53 * Rabs q + bpow radix2 (-1075).
Proof.
  intros f0 f1 d F0 F1 Fd D Fq q.
  assert (P25 : 0 < bpow radix2 (-25)) by apply bpow_gt_0.
  assert (US := u53_small).
  destruct (sub_fin f1 f0 F1 F0) as (Nn & Kn).
  assert (Fn : isfin (nsub f1 f0) = true).
  { destruct (nsub f1 f0) as [s|s| |s m e H]; try reflexivity; exfalso; [|discriminate Nn].
    destruct d as [sd|sd| |sd md ed Hd]; try discriminate Fq; discriminate Fd. }
  assert (IN : forall z : f64, isfin z = true -> forall r, key z = sat r -> key z = r).
  { intros z Fz r E; assert (B := key_bound z Fz); fold big in B; rewrite E in B |- *.
    apply sat_inside; apply Rabs_def1; lra. }
  apply (IN _ Fn) in Kn.
  destruct (div_fin _ d Fn Fd ltac:(lra)) as (_ & Kq); apply (IN _ Fq) in Kq; rewrite Kq.
  assert (SE := sum_error (key f1) (- key f0) (fmt_key _ F1) (generic_format_opp _ _ _ (fmt_key _ F0))).
  fold (key f1 - key f0) in SE; rewrite <- Kn in SE.
  set (w := key (nsub f1 f0)) in *.
  assert (RE := rnd_error (w / key d)).
  assert (QE : Rabs (w / key d - q) <= u53 * Rabs q).
  { unfold q; replace (w / key d - (key f1 - key f0) / key d) with ((w - (key f1 - key f0)) / key d)
      by (field; lra).
    unfold Rdiv; rewrite !Rabs_mult, <- Rmult_assoc; apply Rmult_le_compat_r; [apply Rabs_pos|exact SE]. }
  assert (QA : Rabs (w / key d) <= (1 + u53) * Rabs q).
  { replace (w / key d) with (w / key d - q + q) by ring.
    eapply Rle_trans; [apply Rabs_triang|]; lra. }
  replace (rnd (w / key d) - q) with (rnd (w / key d) - w / key d + (w / key d - q)) by ring.
  eapply Rle_trans; [apply Rabs_triang|].
  assert (PQ := Rabs_pos q).
  assert (Rabs (w / key d) * u53 <= (1 + u53) * Rabs q * u53) by (apply Rmult_le_compat_r; lra).
  assert (C : (1 + u53) * u53 + u53 <= 4 * u53) by nra.
  assert (C' := Rmult_le_compat_r _ _ _ PQ C); lra.
Qed.

(** The real point [X] with its coordinate [j] moved by [h]. *)
Definition moved (X : vec R) (j : nat) (h : R) : vec R :=
  firstn j X ++ match skipn j X with a :: r => a + h :: r | [] => [] end.

(** [a] is the slope of [g] at [X] in the direction [j], [K] bounds its
    curvature up to the distance [d]. *)
Definition slope (g : vec R -> R) (X : vec R) (j : nat) (a K d : R) : Prop :=
  forall h, 0 <= h <= d -> Rabs (g (moved X j h) - g X - h * a) <= K * (h * h).

Lemma slope_bound : forall (f0 f1 d : f64) G0 G1 h a K eps,
  isfin f0 = true -> isfin f1 = true -> isfin d = true ->
  bpow radix2 (-25) <= key d -> isfin (ndiv (nsub f1 f0) d) = true ->
  Rabs (h - key d) <= bpow radix2 (-27) * key d ->
  Rabs (key f0 - G0) <= eps -> Rabs (key f1 - G1) <= eps -> 0 <= K ->
  Rabs (G1 - G0 - h * a) <= K * (h * h) ->
  Rabs (key (ndiv (nsub f1 f0) d) - a)
  <= bpow radix2 (-26) * Rabs a + (1 + bpow radix2 (-24)) * (K * key d + 2 * eps / key d) + bpow radix2 (-1075).
Proof.
  intros f0 f1 d G0 G1 h a K eps F0 F1 Fd D Fq Hh E0 E1 PK HT.
  assert (QE := quotient_error f0 f1 d F0 F1 Fd D Fq); cbv zeta in QE.
  set (q := (key f1 - key f0) / key d) in *; set (D' := key d) in *.
  assert (P25 : 0 < bpow radix2 (-25)) by apply bpow_gt_0.
  assert (US := u53_small).
  assert (E27 : bpow radix2 (-26) = 2 * bpow radix2 (-27) /\ bpow radix2 (-24) = 8 * bpow radix2 (-27)).
  { split; [change 2 with (bpow radix2 1)|change 8 with (bpow radix2 3)]; now rewrite <- bpow_plus. }
  destruct E27 as (-> & ->).
  assert (S27 : 0 < bpow radix2 (-27) <= / 1024).
  { split; [apply bpow_gt_0|]; change (/ 1024) with (bpow radix2 (-10)); apply bpow_le; lia. }
  assert (UL : 1024 * u53 <= bpow radix2 (-27)).
  { change 1024 with (bpow radix2 10); rewrite <- bpow_plus; apply bpow_le; lia. }
  set (rho := bpow radix2 (-27)) in *; clearbody rho D'.
  assert (Pe : 0 <= eps) by (assert (T := Rabs_pos (key f0 - G0)); lra).
  set (B := K * D' + 2 * eps / D').
  assert (PB : 0 <= B).
  { unfold B, Rdiv; assert (0 < / D') by (apply Rinv_0_lt_compat; lra).
    apply Rplus_le_le_0_compat; apply Rmult_le_pos; lra. }
  (* the exact quotient *)
  assert (QA : Rabs (q - a) <= rho * Rabs a + (1 + 3 * rho) * B).
  { assert (N : Rabs (key f1 - key f0 - D' * a) <= rho * D' * Rabs a + K * (h * h) + 2 * eps).
    { replace (key f1 - key f0 - D' * a)
        with ((key f1 - G1) + - (key f0 - G0) + (G1 - G0 - h * a) + (h - D') * a) by ring.
      eapply Rle_trans; [apply Rabs_triang|]; rewrite Rabs_mult.
      eapply Rle_trans; [apply Rplus_le_compat_r, Rabs_triang|].
      eapply Rle_trans; [apply Rplus_le_compat_r, Rplus_le_compat_r, Rabs_triang|].
      rewrite Rabs_Ropp.
      assert (Rabs (h - D') * Rabs a <= rho * D' * Rabs a)
        by (apply Rmult_le_compat_r; [apply Rabs_pos|exact Hh]).
      lra. }
    assert (HH : h * h <= (1 + 3 * rho) * (D' * D')).
    { apply Rabs_le_inv in Hh.
      apply Rle_trans with ((1 + rho) * D' * ((1 + rho) * D')).
      - apply Rmult_le_compat; nra.
      - assert ((1 + rho) * (1 + rho) <= 1 + 3 * rho) by nra.
        assert (0 < D' * D') by nra. nra. }
    assert (E : q - a = (key f1 - key f0 - D' * a) / D') by (unfold q; field; lra).
    rewrite E; unfold Rdiv; rewrite Rabs_mult, Rabs_inv, (Rabs_pos_eq D') by lra.
    apply Rmult_le_reg_r with D'; [lra|]; rewrite Rmult_assoc, Rinv_l, Rmult_1_r by lra.
    unfold B, Rdiv.
    replace ((rho * Rabs a + (1 + 3 * rho) * (K * D' + 2 * eps * / D')) * D')
      with (rho * D' * Rabs a + (1 + 3 * rho) * (K * (D' * D')) + (1 + 3 * rho) * (2 * eps))
      by (field; lra).
    assert (K * (h * h) <= (1 + 3 * rho) * (K * (D' * D'))).
    { apply Rmult_le_compat_l with (r := K) in HH; [|exact PK]; lra. }
    assert (2 * eps <= (1 + 3 * rho) * (2 * eps)) by nra.
    lra. }
  replace (key (ndiv (nsub f1 f0) d) - a) with (key (ndiv (nsub f1 f0) d) - q + (q - a)) by ring.
  eapply Rle_trans; [apply Rabs_triang|].
  assert (QQ : Rabs q <= Rabs a + (rho * Rabs a + (1 + 3 * rho) * B)).
  { replace q with (a + (q - a)) by ring; eapply Rle_trans; [apply Rabs_triang|]; lra. }
  assert (PA := Rabs_pos a).
  assert (Q4 : 4 * u53 * Rabs q <= rho / 256 * (Rabs a + (rho * Rabs a + (1 + 3 * rho) * B))).
  { apply Rmult_le_compat; [lra|apply Rabs_pos|lra|exact QQ]. }
  assert (Q5 : rho / 256 * (1 + rho) <= rho) by nra.
  assert (Q6 : rho / 256 * (1 + 3 * rho) + (1 + 3 * rho) <= 1 + 8 * rho) by nra.
  assert (Q7 := Rmult_le_compat_r _ _ _ PA Q5).
  assert (Q8 := Rmult_le_compat_r _ _ _ PB Q6).
  lra.
Qed.

Lemma shift_moved : forall (x : vec f64) j a d, nth_error x j = Some a ->
  map key (shift x j d) = moved (map key x) j (key (nadd a d) - key a).
Proof.
  intros x j a d E; unfold shift, moved; rewrite map_app, firstn_map, skipn_map; f_equal.
  revert x E; induction j as [|j IH]; intros [|b x] E; cbn [nth_error] in E; try discriminate E.
  - injection E as ->; cbn [skipn map]; f_equal; ring.
  - cbn [skipn]; exact (IH x E).
Qed.

Lemma default_perturbations n (x dx : vec f64) : length x = n ->
  compute_perturbations (map iterative_of_params_fd (default_vec_iteratives_fd n)) x = Ret dx ->
  length dx = n /\ forall j d, nth_error dx j = Some d -> exists a, nth_error x j = Some a /\ d = dflt a.
Proof.
  revert x dx; induction n as [|n IH]; intros x dx L E.
  - destruct x as [|a x]; [|discriminate L].
    injection E as <-; split; [reflexivity|]; intros [|j] d Q; discriminate Q.
  - destruct x as [|a x]; [discriminate L|]; cbn [length] in L.
    unfold default_vec_iteratives_fd in E; cbn [repeat map compute_perturbations] in E.
    fold (default_vec_iteratives_fd (F := f64) n) in E.
    cbn [it_compute_perturbation iterative_of_params_fd bind] in E.
    destruct (compute_perturbations _ x) as [rest|q] eqn:Er; [|discriminate E]; cbn [bind] in E.
    injection E as <-; destruct (IH x rest ltac:(lia) Er) as (L' & H); split; [cbn; lia|].
    intros [|j] d Q; cbn [nth_error] in Q |- *; [injection Q as <-; eauto|exact (H j d Q)].
Qed.

(** The points used for the jacobian at [x]. *)
Definition used_point (x y : vec f64) : Prop :=
  y = x \/ exists j a, nth_error x j = Some a /\ y = shift x j (dflt a).

(** *** C88 *)

(** [g i] are the residuals as real functions, [J] their derivatives, [K] a bound
    of their curvature, [eps] the error made in evaluating them. *)
Theorem C88_slopes :
  forall St EI EU (M : Model f64 St EI EU) (G : vec f64 -> residuals_values f64) (Good : St -> Prop)
    conf n s s' A dx g (J : nat -> nat -> R) K eps,
  let x := get_iteratives M s in
  depends_only_on_iteratives M Good n G -> Good s -> get_residuals M s = Ret (G x) ->
  length x = n -> len_problem M s = n -> length (update_methods conf) = n ->
  compute_perturbations (map iterative_of_params_fd (default_vec_iteratives_fd n)) x = Ret dx ->
  compute_jacobian_from_finite_difference M s dx conf = Ret (s', Ok A) ->
  (forall a, In a x -> isfin a = true /\ Rabs (key a) <= bpow radix2 1022) ->
  (forall y i f, (i < n)%nat -> used_point x y -> update_residual conf (G y) i f ->
     isfin f = true /\ Rabs (key f - g i (map key y)) <= eps) ->
  0 <= K ->
  (forall i j a, (i < n)%nat -> nth_error x j = Some a ->
     slope (g i) (map key x) j (J i j) K (2 * key (dflt a))) ->
  forall i j a, (i < n)%nat -> nth_error x j = Some a ->
  exists row e, nth_error A i = Some row /\ nth_error row j = Some e /\
  (isfin e = true ->
   Rabs (key e - J i j)
   <= bpow radix2 (-26) * Rabs (J i j)
      + (1 + bpow radix2 (-24)) * (K * key (dflt a) + 2 * eps / key (dflt a)) + bpow radix2 (-1075)).
Proof.
  intros St EI EU M G Good conf n s s' A dx g J K eps x HG Gs Rs Lx Lp Lm Edx EJ Bx AC PK SL i j a Hi Ea.
  destruct (default_perturbations n x dx Lx Edx) as (Ldx & Hdx).
  destruct (C26_entries M Good G conf dx n s s' A HG Gs Lx Rs Ldx Lp Lm EJ) as (_ & ENT).
  assert (Hj : (j < n)%nat).
  { rewrite <- Lx; apply nth_error_Some; rewrite Ea; discriminate. }
  destruct (ENT i j Hi Hj) as (d & row & f0 & f1 & Ed & Er & _ & U0 & U1 & Ee).
  exists row, (ndiv (nsub f1 f0) d); split; [exact Er|]; split; [exact Ee|]; intros Fe.
  destruct (Hdx j d Ed) as (a' & Ea' & ->); rewrite Ea in Ea'; injection Ea' as <-.
  destruct (Bx a (nth_error_In _ _ Ea)) as (Fa & Ba).
  destruct (displacement a Fa Ba) as (Fd & Dd & _ & Dh).
  destruct (AC x i f0 Hi (or_introl eq_refl) U0) as (F0 & E0).
  fold x in U1.
  destruct (AC (shift x j (dflt a)) i f1 Hi (or_intror (ex_intro _ j (ex_intro _ a (conj Ea eq_refl)))) U1)
    as (F1 & E1).
  rewrite (shift_moved x j a (dflt a) Ea) in E1.
  set (h := key (nadd a (dflt a)) - key a) in *.
  assert (P25 : 0 < bpow radix2 (-25)) by apply bpow_gt_0.
  assert (R27 : bpow radix2 (-27) <= 1) by (change 1 with (bpow radix2 0); apply bpow_le; lia).
  assert (Hh : 0 <= h <= 2 * key (dflt a)).
  { apply Rabs_le_inv in Dh; nra. }
  exact (slope_bound f0 f1 (dflt a) (g i (map key x)) (g i (moved (map key x) j h)) h (J i j) K eps
           F0 F1 Fd Dd Fe Dh E0 E1 PK (SL i j a Hi Ea h Hh)).
Qed.
Print Assumptions C88_slopes.
Theorem C88_displacement :
  forall x : f64, isfin x = true -> Rabs (key x) <= bpow radix2 1022 ->
  isfin (dflt x) = true /\ bpow radix2 (-25) <= key (dflt x) /\ isfin (nadd x (dflt x)) = true /\
  Rabs (key (nadd x (dflt x)) - key x - key (dflt x)) <= bpow radix2 (-27) * key (dflt x).
Proof. exact displacement. Qed.
Print Assumptions C88_displacement.

(** Case: the slope of x^2 - 2 at 3/2 is found to within 1e-6. *)
Definition three_halves : f64 := @B754_finite 53 1024 false 6755399441055744 (-52) eq_refl.
Lemma three_halves_key : key three_halves = 3 / 2.
Proof.
  unfold three_halves; cbn [key B2R cond_Zopp]; unfold F2R; cbn [Fnum Fexp].
  change 6755399441055744%Z with (3 * 2251799813685248)%Z; rewrite mult_IZR.
  change (IZR 2251799813685248) with (IZR (radix2 ^ 51)); rewrite IZR_Zpower, Rmult_assoc by lia.
  rewrite <- bpow_plus; reflexivity.
Qed.
Definition at_3_2 : user_model f64 := mkUserModel [three_halves] (sq2 [three_halves]) [n0] 1.
Definition square_values (y : vec f64) : residuals_values f64 := mkResidualsValues (sq2 y) [n0].

Lemma sub_zero_key : forall b : f64, isfin b = true ->
  isfin (nsub b n0) = true /\ key (nsub b n0) = key b.
Proof.
  intros b Fb; assert (A := sub_zero b).
  assert (F : isfin (nsub b n0) = true) by (rewrite <- abs_fin, A, abs_fin; exact Fb).
  split; [exact F|].
  assert (Z : key (n0 : f64) = 0) by (cbn; reflexivity).
  assert (F0 : isfin (n0 : f64) = true) by (vm_compute; reflexivity).
  destruct (sub_fin b n0 Fb F0) as (_ & K); rewrite K, Z, Rminus_0_r, rnd_key by exact Fb.
  apply sat_key; exact Fb.
Qed.

Example C88_case : exists dx s' e,
  compute_perturbations (map iterative_of_params_fd (default_vec_iteratives_fd 1)) [three_halves] = Ret dx /\
  compute_jacobian_from_finite_difference (model_from_function sq2) at_3_2 dx (abs_conf 1)
    = Ret (s', Ok [[e]]) /\
  Rabs (key e - 3) <= / 1000000.
Proof.
  assert (Q : match compute_perturbations (map iterative_of_params_fd (default_vec_iteratives_fd 1))
                      [three_halves] with
              | Ret dx =>
                  match compute_jacobian_from_finite_difference (model_from_function sq2) at_3_2 dx
                          (abs_conf 1) with
                  | Ret (_, Ok [[e]]) => isfin e && nleb (dflt three_halves) (ndec 1 10000000)
                  | _ => false
                  end
              | _ => false
              end = true) by (vm_compute; reflexivity).
  destruct (compute_perturbations _ _) as [dx|] eqn:Edx; [|discriminate Q].
  destruct (compute_jacobian_from_finite_difference _ _ _ _) as [[s' [A|]]|] eqn:EJ; try discriminate Q.
  destruct A as [|[|e [|? ?]] [|? ?]]; try discriminate Q.
  apply andb_prop in Q; destruct Q as (Fe & Qd).
  exists dx, s', e; split; [reflexivity|]; split; [exact EJ|].
  assert (F3 : isfin three_halves = true) by reflexivity; assert (K3 := three_halves_key).
  assert (B3 : Rabs (key three_halves) <= bpow radix2 1022).
  { rewrite K3, Rabs_pos_eq by lra; apply Rle_trans with (bpow radix2 1); [cbn; lra|apply bpow_le; lia]. }
  destruct (displacement three_halves F3 B3) as (Fd & D1 & Fa & Dh).
  assert (D2 : key (dflt three_halves) <= / 8388608).
  { apply leb_true_inv in Qd; destruct Qd as (_ & _ & Qd); eapply Rle_trans; [exact Qd|].
    assert (H : nleb (ndec 1 10000000 : f64) (@B754_finite 53 1024 false 4503599627370496 (-75) eq_refl) = true)
      by (vm_compute; reflexivity).
    apply leb_true_inv in H; destruct H as (_ & _ & H); rewrite power_key in H; exact H. }
  set (d := dflt three_halves) in *.
  assert (P25 : bpow radix2 (-25) = / 33554432) by reflexivity.
  assert (R27 : bpow radix2 (-27) = / 134217728) by reflexivity.
  rewrite P25 in D1; rewrite R27 in Dh; apply Rabs_le_inv in Dh; rewrite K3 in Dh.
  assert (LS : forall x, length x = 1%nat -> length (sq2 x) = 1%nat)
    by (intros x Lx; unfold sq2; rewrite map_length; exact Lx).
  destruct (C88_slopes _ _ _ (model_from_function sq2) square_values
              (fun s => um_right s = vzeros 1) (abs_conf 1) 1 at_3_2 s' [[e]] dx
              square_less_2 (fun _ _ => 3) 1 (16 * u53))
    with (i := 0%nat) (j := 0%nat) (a := three_halves) as (row & e' & Er & Ee & B);
    try reflexivity; try lia; try lra; try exact EJ; try exact Edx.
  - exact (proj1 (function_depends 1 sq2 LS)).
  - intros a [<-|[]]; split; [exact F3|exact B3].
  - intros y i f Hi Hy (m & l & r & (Em & El & Er) & ->); assert (i = 0%nat) by lia; subst i.
    injection Em as <-.
    assert (Y : exists b, y = [b] /\ isfin b = true /\ 1 <= key b <= 2).
    { destruct Hy as [->|(j & a & Ea & ->)].
      - exists three_halves; rewrite K3; repeat split; lra.
      - destruct j as [|[|j]]; [|discriminate Ea|discriminate Ea]; injection Ea as <-.
        exists (nadd three_halves d); split; [reflexivity|]; split; [exact Fa|]; lra. }
    destruct Y as (b & -> & Fb & Rb).
    unfold square_values, sq2 in El, Er; cbn [rv_left rv_right map nth_error] in El, Er.
    injection El as <-; injection Er as <-.
    destruct (square_accurate b Fb Rb) as (Fq & Eq).
    destruct (sub_zero_key _ Fq) as (Fz & Kz); cbn [residual].
    split; [exact Fz|]; unfold square_less_2; cbn [map nth]; rewrite <- Kz in Eq; exact Eq.
  - intros i j a Hi Ea h Hh; destruct j as [|[|j]]; [|discriminate Ea|discriminate Ea].
    unfold square_less_2, moved; cbn [get_iteratives model_from_function at_3_2 um_inputs map firstn skipn List.app nth].
    rewrite K3; replace ((3 / 2 + h) * (3 / 2 + h) - 2 - (3 / 2 * (3 / 2) - 2) - h * 3) with (h * h) by field.
    rewrite Rabs_pos_eq by nra; lra.
  - injection Er as <-; injection Ee as <-; specialize (B Fe).
    eapply Rle_trans; [exact B|]; fold d.
    rewrite (Rabs_pos_eq 3) by lra.
    change (bpow radix2 (-26)) with (/ 67108864); change (bpow radix2 (-24)) with (/ 16777216).
    assert (T5 : bpow radix2 (-1075) <= / 67108864)
      by (change (/ 67108864) with (bpow radix2 (-26)); apply bpow_le; lia).
    assert (U53 : u53 = / 9007199254740992) by reflexivity.
    assert (U16 : 2 * (16 * u53) / key d <= / 8388608).
    { apply Rmult_le_reg_r with (key d); [lra|].
      unfold Rdiv; rewrite Rmult_assoc, Rinv_l, Rmult_1_r by lra; rewrite U53; lra. }
    set (w := 2 * (16 * u53) / key d) in *; clearbody w; lra.
Qed.
