(** A linear differential expression plus a product of two derivatives, and its linearisation (C100). *)
From Coq Require Import List Arith Reals.
From Coquelicot Require Import Coquelicot.
From Verif Require Import Base Numbers SpecBasis ModelOde SpecOde.
Import ListNotations.
Open Scope R_scope.

Definition nl (co : list (list R)) (g : R -> R) (a b : nat) (y : R -> R) (t : R) : R :=
  ode co y t + g t * Derive_n y a t * Derive_n y b t.
(** its derivative at [p] in the direction [v] *)
Definition nl_lin (co : list (list R)) (g : R -> R) (a b : nat) (p v : R -> R) (t : R) : R :=
  ode co v t + g t * (Derive_n p a t * Derive_n v b t + Derive_n v a t * Derive_n p b t).
(** at the points [xs] the linearised equation with zero conditions has only the zero solution among
    the polynomials with [k] coefficients *)
Definition isolated (co : list (list R)) (g : R -> R) (a b : nat) (cs : list cond) (k : nat) (xs : list R) (p : R -> R) : Prop :=
  forall v, (length v <= k)%nat -> (forall c, In c cs -> Derive_n (poly_at v) (c_ord c) (c_pt c) = 0) ->
    (forall t, In t xs -> nl_lin co g a b p (poly_at v) t = 0) -> forall t, poly_at v t = 0.
