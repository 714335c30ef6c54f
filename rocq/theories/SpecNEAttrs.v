(** Vocabulary of the statements about assigned attributes and weights of n-dimensional ELM objects. *)
From Coq Require Import List Arith ZArith Reals.
From Verif Require Import Base Numbers ModelBFPy ModelBFCpp SpecBasis ModelELM SpecELM ModelND SpecND ModelNELM
  SpecNELM ModelNAttrs SpecNAttrs ModelNEAttrs.
Import ListNotations.

(** the attributes and arrays of [o] describe the object [BF.nELM<f>(a, b, nC, m)] of [dim] dimensions
    with weights [w] and biases [v]: the sizes are those, the arrays of the object start with [nC], [w]
    and [v], and the map of each dimension is that of the interval from [a] to [b] onto [0, 1] *)
Definition ne_describes (o : eobj R) (dim : nat) (a b : list R) (nC : list Z) (m : nat) (w v : list R) : Prop :=
  p_dim (e_o o) = Z.of_nat dim /\ p_m (e_o o) = Z.of_nat m /\
  firstn (dim * m) (e_w o) = w /\ firstn m (e_b o) = v /\
  Z.to_nat (p_numC (e_o o)) = length nC /\ firstn (length nC) (e_nC o) = nC /\
  forall k, (k < dim)%nat -> exists x0k ck, nth_error (p_x0 (e_o o)) k = Some x0k /\ nth_error (p_c (e_o o)) k = Some ck /\
    forall t, ((t - x0k) * ck + p_z0 (e_o o) = (t - nth k a 0) / (nth k b 0 - nth k a 0))%R.

(** the number of columns of a matrix without, or with, the removed functions *)
Definition ne_count (nC : list Z) (m : nat) (full : bool) : nat := if full then m else (m - length nC)%nat.
(** row [i], column [k] of an array of [m] columns that is stored row by row *)
Definition at_row {T} (m : nat) (w : list T) (i k : nat) : option T := nth_error w (i * m + k)%nat.
