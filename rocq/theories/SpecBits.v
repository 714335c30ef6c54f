(** Vocabulary of C77 and C78: [H] of the one-dimensional families in binary64. *)
From Coq Require Import ZArith Reals List.
From Flocq Require Import Core BinarySingleNaN.
From Verif Require Import Base Numbers64 ModelBFPy ModelBFCpp SpecBasis.

(** the matrix returned by [H] for a basis object built from these arguments; [E] is any
    implementation of sin, cos and pi *)
Definition H64 (be : backend) (E : Fun f64) (f : fam) (x0 xf : f64) (nC : list Z) (m : nat)
    (xs : list f64) (d : nat) (full : bool) : option (mat f64) :=
  match be with
  | Py => py_H F64 E f (fam_init F64 E f x0 xf nC m) xs d full
  | Cpp => cpp_H_mat F64 E f (fam_init F64 E f x0 xf nC m) xs d full
  end.

(** entry of a matrix of floats, as a real number; [None] outside the matrix or if the
    entry is infinite or NaN *)
Definition entry64 (M : mat f64) (j k : nat) : option R :=
  match nth_error (md M) j with
  | Some row => match nth_error row k with
                | Some v => if is_finite v then Some (val v) else None
                | None => None
                end
  | None => None
  end.

(** a domain whose width and inverse width are ordinary numbers: no overflow and no
    underflow in [2 / (xf - x0)] *)
Definition usable_domain (x0 xf : f64) : Prop :=
  fin x0 /\ fin xf /\ (bpow radix2 (-1021) <= Rabs (val xf - val x0) <= bpow radix2 1022)%R.
