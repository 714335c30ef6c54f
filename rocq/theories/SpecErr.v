(** Vocabulary of C85. *)
From Coq Require Import ZArith Reals.
From Flocq Require Import Core.
From Verif Require Import Base Numbers64 ModelBFPy.

(** half a unit in the last place of 1: 2^-53 *)
Definition ulp_half : R := bpow radix2 (-53).
(** an array of floats, as an array of real numbers *)
Definition vmat (x : mat f64) : mat R := Mat (mr x) (mc x) (List.map (List.map val) (md x)).
