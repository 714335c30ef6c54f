(** Vocabulary of the statements about assigned attributes of n-dimensional objects. *)
From Coq Require Import List Arith ZArith Reals.
From Verif Require Import Base Numbers ModelBFPy ModelBFCpp SpecBasis ModelND SpecND ModelNAttrs.
Import ListNotations.

(** the attribute [numBasisFuncFull] or [numBasisFunc] *)
Definition n_advertised (o : nobj R) (full : bool) : Z := if full then p_numFull o else p_num o.

(** the attributes of [o] describe the object [BF.n<f>(a, b, nC, m)] of [dim] dimensions: the sizes are
    those, the array of removed functions starts with the rows of [nC], and the map of each dimension is
    that of the interval from [a] to [b] *)
Definition n_describes (o : nobj R) (f : fam) (dim : nat) (a b : list R) (nC : mat Z) (m : nat) : Prop :=
  p_dim o = Z.of_nat dim /\ p_m o = Z.of_nat m /\
  mc nC = Z.to_nat (p_numC o) /\
  (forall i, (i < dim * mc nC)%nat -> brd (p_nC o) i = nth_error (concat (md nC)) i) /\
  forall k, (k < dim)%nat -> exists x0k ck, nth_error (p_x0 o) k = Some x0k /\ nth_error (p_c o) k = Some ck /\
    nth k a 0%R <> nth k b 0%R /\
    forall t, ((t - x0k) * ck + p_z0 o = zmap f (nth k a 0%R) (nth k b 0%R) t)%R.

(** [M] is [M'] followed by columns of ones up to [num] columns *)
Definition padded (M M' : mat R) (n num cnt : nat) : Prop :=
  shaped M n num /\ shaped M' n cnt /\
  forall j i, (j < n)%nat -> (i < num)%nat ->
    ment M j i = if (i <? cnt)%nat then ment M' j i else Some 1%R.
