(** Vocabulary of C84: [H] of the n-dimensional families in binary64. *)
From Coq Require Import ZArith Reals List.
From Flocq Require Import Core BinarySingleNaN.
From Verif Require Import Base Numbers64 ModelBFPy ModelBFCpp ModelND SpecBasis SpecND SpecBits.
Import ListNotations.

(** [tfc.utils.BF.n<f>(x0, xf, nC, m)] or the same on [tfc.utils.BF_Py], and [.H(x, d, full)] *)
Definition mkn64 (be : backend) (E : Fun f64) (f : fam) x0 xf nC m := nd_init F64 E be f x0 xf nC m.
Definition Hn64 (be : backend) (E : Fun f64) (f : fam) (B : nbasis (T:=f64)) (x : mat f64) (d : list nat)
    (full : bool) : option (mat f64) := nd_H F64 E be f B x d full.
(** [numBasisFunc], [numBasisFuncFull] *)
Definition numbers {T} (B : nbasis (T:=T)) (full : bool) : nat := if full then nb_numFull B else nb_num B.

(** the arguments the classes accept *)
Definition args_n {T} (f : fam) (dim : nat) (x0 xf : list T) (nC : mat Z) (m : nat) : Prop :=
  bounded f /\ (1 <= dim)%nat /\ (1 <= m)%nat /\ length x0 = dim /\ length xf = dim /\ shaped nC dim (mc nC).
(** orders below 2^51 *)
Definition orders64 (dim : nat) (d : list nat) : Prop :=
  forall k, (k < dim)%nat -> (Z.of_nat (nth k d 0%nat) < 2 ^ 51)%Z.

(** rounded product, in this order: ((1 * F 0) * F 1) * ... *)
Fixpoint rprod (n : nat) (F : nat -> f64) : f64 :=
  match n with O => f64_int 1 | S n' => omul F64 (rprod n' F) (F n') end.
(** entry of the matrix of the one-dimensional class: function [a], order [d], at [x] *)
Definition uni64 (be : backend) (E : Fun f64) (f : fam) (x0 xf : f64) (m : nat) (x : f64) (d a : nat) (v : f64)
  : Prop := exists M, H64 be E f x0 xf [] m [x] d true = Some M /\ ment M 0 a = Some v.
