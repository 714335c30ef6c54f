(** Basis matrices and values at points as matrices of real numbers (C74). *)
From Coq Require Import Reals.
From mathcomp Require Import all_ssreflect all_algebra.
From Verif Require Import Base ModelBFPy RealStruct.
Set Implicit Arguments.
Unset Strict Implicit.
Unset Printing Implicit Defensive.
Import GRing.Theory.
Local Open Scope ring_scope.

Definition mx_of m n (M : mat R) : 'M[R]_(m, n) := \matrix_(i, j) nth 0 (nth [::] (md M) i) j.
(** the values of [g] at the points [xs] *)
Definition values m (g : R -> R) (xs : seq R) : 'cV[R]_m := \col_i g (nth 0 xs i).
