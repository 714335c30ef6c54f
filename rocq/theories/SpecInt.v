(** Sizes an [int] can hold, and what is asked of the arguments; stated without the model. *)
From Coq Require Import List ZArith.
From mathcomp Require binomial.
Import ListNotations.
Local Open Scope Z_scope.

(** a 32-bit [int] *)
Definition fits (z : Z) : Prop := z <= 2 ^ 31 - 1.
(** a number of points or of basis functions *)
Definition size (z : Z) : Prop := 0 <= z /\ fits z.
(** the columns to remove: different columns of a matrix with [m] columns *)
Definition removable (m : Z) (nC : list Z) : Prop := NoDup nC /\ Forall (fun j => 0 <= j < m) nC.
(** the number of products of [dim] univariate functions of degrees below [m] whose degrees add up
    to at most [m - 1]: the number of ways to choose [dim] out of [m - 1 + dim] *)
Definition choose (n k : nat) : Z := Z.of_nat (binomial.binomial n k).
Definition product_count (dim m : Z) : Z := choose (Z.to_nat (m - 1 + dim)) (Z.to_nat dim).
(** the columns the n-dimensional ELM classes are told to remove; [nC] full of -1 means none *)
Definition removed (nC : list Z) : list Z := if forallb (fun c => c =? -1) nC then [] else nC.
(** the number of columns of the result *)
Definition columns_of (m : Z) (nC : list Z) (full : bool) : Z := if full then m else m - Z.of_nat (length nC).
