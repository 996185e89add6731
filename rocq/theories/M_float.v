(** Arithmetic of double precision numbers, as NumPy's float64: IEEE 754 binary64, rounding to the nearest, ties to
    even (Flocq's operations).  [fexp] and [flog], NumPy's exp and log, are any functions. *)
From Coq Require Import ZArith Bool.
From Flocq Require Import IEEE754.BinarySingleNaN Core.
From Verif Require Import BaseNum BaseFloat.

#[global] Instance prec53 : FLX.Prec_gt_0 53 := eq_refl.
#[global] Instance emax1024 : Prec_lt_emax 53 1024 := eq_refl.

Definition f_zero : float64 := B754_zero false.
Definition f_int (n : Z) : float64 := binary_normalize 53 1024 eq_refl eq_refl mode_NE n 0 false.
Definition f_add : float64 -> float64 -> float64 := Bplus mode_NE.
Definition f_sub : float64 -> float64 -> float64 := Bminus mode_NE.
Definition f_mul : float64 -> float64 -> float64 := Bmult mode_NE.
Definition f_div : float64 -> float64 -> float64 := Bdiv mode_NE.
(** np.maximum: NaN if any is *)
Definition f_max (x y : float64) : float64 :=
  if is_nan x then x else if is_nan y then y else if Bltb x y then y else x.
Definition Num_float64 (fexp flog : float64 -> float64) : Num float64 := {|
  nzero := f_zero; none := f_int 1; ntwo := f_int 2;
  nadd := f_add; nsub := f_sub; nmul := f_mul; ndiv := f_div;
  nmax := f_max; nsqrt := Bsqrt mode_NE; nexp := fexp; nlog := flog;
  nlt := @Bltb 53 1024; nofnat := fun n => f_int (Z.of_nat n) |}.
