(** Derivatives with respect to dictionary entries, and dictionaries of one form. *)
From Coq Require Import List Arith.
From Verif Require Import Base ModelDict SpecDict.
Import ListNotations.

Section Spec.
Context {T K : Type}.
Notation arr := (@arr T). Notation view := (list (K * @ModelDict.arr T)).
(** [D r k j] is the derivative of residual [r] with respect to entry [j] of the array under
    [k]: [jacfwd] returns under each key the array of these, the residual index first. *)
Definition block (m : nat) (D : nat -> K -> nat -> T) (p : K * arr) : arr :=
  Arr_ (m :: a_shape (snd p))
       (flat_map (fun r => map (D r (fst p)) (seq 0 (length (a_data (snd p))))) (seq 0 m)).
Definition jac_of (m : nat) (D : nat -> K -> nat -> T) (xi jacob : view) : Prop :=
  jacob = map (fun p => (fst p, block m D p)) xi.
(** same keys and shapes *)
Definition same_form (c c' : view) : Prop :=
  map fst c' = map fst c /\ map (fun p => a_shape (snd p)) c' = map (fun p => a_shape (snd p)) c /\
  Forall (fun p => wf (snd p)) c'.
End Spec.
