(** Vocabulary of the statements about n-dimensional bases and orders that may be any integers. *)
From Coq Require Import List Arith ZArith Reals.
From Verif Require Import Base Numbers ModelBFPy ModelBFCpp ModelND ModelOrder ModelNOrder SpecBasis SpecND SpecOrder.
Import ListNotations.

(** [.H(x, d, full)] of the object [B] over the reals, with room for [lim] nested calls *)
Definition Hnz (lim : nat) (be : backend) (f : fam) (B : nbasis (T:=R)) (x : mat R) (d : list Z) (full : bool) :=
  nd_Hz ROps RFun lim be f B x d full.
(** what the one-dimensional class answers for the interval and the order of dimension [k] *)
Definition along (lim : nat) (be : backend) (f : fam) (x0 xf : list R) (m : nat) (d : list Z) (k : nat) (t : R) : option (mat R) :=
  H1z lim be f (nth k x0 0%R) (nth k xf 0%R) [] m [t] (nth k d 0%Z) true.
(** one order per dimension; the C++ classes read missing orders as zero *)
Definition given (be : backend) (dim : nat) (d : list Z) : Prop := be = Cpp \/ (dim <= length d)%nat.
(** [M] has a column for every multi-index of [idx]; its entries are the products of what the
    one-dimensional classes answer *)
Definition products lim be f x0 xf m dim (idx : list (list nat)) (x : mat R) (d : list Z) (n : nat) (M : mat R) : Prop :=
  shaped M n (length idx) /\
  forall i v j, nth_error idx i = Some v -> (j < n)%nat -> exists F : nat -> R,
    (forall k, (k < dim)%nat -> exists t, ment x k j = Some t /\ result_entry (along lim be f x0 xf m d k t) 0 (nth k v 0%nat) (F k)) /\
    ment M j i = Some (prodn dim F).
