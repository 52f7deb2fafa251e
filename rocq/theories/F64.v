(** IEEE-754 binary64 with a single NaN (Flocq's [BinarySingleNaN]) as the
    scalar type: Rust's [f64] up to the payload and sign of NaN. *)
From Flocq Require Import Core BinarySingleNaN.
From Verif Require Import Base Num Linalg.

Definition f64 : Type := binary_float 53 1024.

Lemma prec64_gt_0 : FLX.Prec_gt_0 53.
Proof. reflexivity. Qed.
Lemma prec64_lt_emax : Prec_lt_emax 53 1024.
Proof. reflexivity. Qed.
#[global] Existing Instance prec64_gt_0.
#[global] Existing Instance prec64_lt_emax.

Definition f64_one : f64 := Bone.

(** [f64::signum]: NaN for NaN, otherwise 1 with the sign of the argument
    (also for zeros). *)
Definition f64_signum (x : f64) : f64 :=
  match x with
  | B754_nan => B754_nan
  | _ => if Bsign x then Bopp f64_one else f64_one
  end.

#[global] Instance Num_f64 : Num f64 := {
  nadd := Bplus mode_NE;
  nsub := Bminus mode_NE;
  nmul := Bmult mode_NE;
  ndiv := Bdiv mode_NE;
  nneg := Bopp;
  nabs := Babs;
  nsignum := f64_signum;
  nltb := Bltb;
  nleb := Bleb;
  neqb := Beqb;
  nofZ := fun z => binary_normalize 53 1024 prec64_gt_0 prec64_lt_emax mode_NE z 0 false;
  ninf := B754_infinity false;
  nnan := B754_nan
}.

#[global] Instance Inverter_f64 : Inverter f64 := lu_inverse.
