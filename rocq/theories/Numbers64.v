(** A third carrier for the model: IEEE 754 binary64 with rounding to nearest even,
    from Flocq.  All NaNs are one value, so equality of two numbers is equality of bits
    except for the payload of a NaN.  A C++ [double] and a NumPy [float64] are this type
    when no operation is contracted or reordered by the compiler: setup.py 29 compiles
    with [-O3 -std=c++17], without [-ffast-math] and without [-march].
    [pow] is repeated multiplication here ([opow]); both backends call the same [pow]. *)
From Coq Require Import ZArith Reals.
From Flocq Require Import Core BinarySingleNaN.
From Verif Require Import Base.

Definition f64 := binary_float 53 1024.
#[global] Instance prec64 : Prec_gt_0 53 := eq_refl.
#[global] Instance emax64 : Prec_lt_emax 53 1024 := eq_refl.

(** the float nearest to an integer *)
Definition f64_int (n : Z) : f64 := binary_normalize 53 1024 _ _ mode_NE n 0 false.

Definition F64 : Ops f64 :=
  mkOps (B754_zero false : f64) (f64_int 1) (Bplus mode_NE) (Bminus mode_NE) (Bmult mode_NE)
    (Bdiv mode_NE) Bopp (fun n => f64_int (Z.of_nat n)).

(** the real number a float stands for *)
Definition val (x : f64) : R := B2R x.
(** neither infinite nor NaN *)
Definition fin (x : f64) : Prop := is_finite x = true.
