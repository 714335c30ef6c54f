(** Arrays of doubles against a tolerance (C103). *)
From Coq Require Import List Bool ZArith Reals.
From Flocq Require Import Core BinarySingleNaN.
From Verif Require Import Base Numbers64.
Import ListNotations.

Definition nan (x : f64) : Prop := is_nan x = true.
Definition has_nan (l : list f64) : Prop := exists x, In x l /\ nan x.
(** [x] is a number at most [tol] in absolute value; for an infinite tolerance every number is *)
Definition small (tol x : f64) : Prop := ~ nan x /\
  (tol = B754_infinity false \/ (fin x /\ fin tol /\ (Rabs (val x) <= val tol)%R)).
(** every entry is a number within the tolerance *)
Definition within (tol : f64) (l : list f64) : Prop := forall x, In x l -> small tol x.
