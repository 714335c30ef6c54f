(** Linear independence of the columns of a matrix (C73). *)
From Coq Require Import List Arith ZArith Reals.
From Verif Require Import Base ModelBFPy SpecBasis.
Import ListNotations.

(** only the zero combination of the columns vanishes in every row *)
Definition independent_columns (M : mat R) : Prop :=
  forall a : nat -> R, (forall row, In row (md M) -> row_comb a row = 0%R) ->
  forall i, (i < mc M)%nat -> a i = 0%R.

(** sum of [v k (t - x0)^k / k!] over [k < d] *)
Fixpoint taylor (x0 : R) (v : nat -> R) (d : nat) (t : R) : R :=
  match d with O => 0%R | S k => (taylor x0 v k t + v k * ((t - x0) ^ k / INR (fact k)))%R end.
