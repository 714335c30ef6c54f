(** Residuals that are affine in the entries of a dictionary. *)
From mathcomp Require Import all_ssreflect all_algebra.
From Verif Require Import ModelDict SpecDict SpecSolveDict.
Set Implicit Arguments.
Unset Strict Implicit.
Unset Printing Implicit Defensive.
Import GRing.Theory Num.Theory.
Local Open Scope ring_scope.

Section Spec.
Variables (F : realFieldType) (K : Type).
Notation view := (seq (K * @arr F)).
(** residual [r] is the sum over all keys [k] and entries [j] of [M r k j] times the entry,
    plus [b r] *)
Definition affine_res (m : nat) (M : nat -> K -> nat -> F) (b : nat -> F) (c : view) : seq F :=
  [seq \sum_(p <- c) \sum_(j < size (a_data p.2)) M r p.1 j * nth 0 (a_data p.2) j + b r | r <- iota 0 m].
Definition sumsq (l : seq F) : F := \sum_(x <- l) x ^+ 2.
(** on dictionaries of the form of [c], [res] is affine with coefficients [M], and [jacfwd]
    finds these *)
Definition affine_on (jacfwd : (view -> seq F) -> view -> view) (res : view -> seq F) (c : view) m M b : Prop :=
  forall c', same_form c c' -> res c' = affine_res m M b c' /\ jac_of m M c' (jacfwd res c').
(** no dictionary of the same form has a smaller residual *)
Definition best (res : view -> seq F) (c : view) : Prop :=
  forall c', same_form c c' -> sumsq (res c) <= sumsq (res c').
End Spec.
