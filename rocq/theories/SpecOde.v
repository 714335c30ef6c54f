(** Linear differential equations with polynomial coefficients, and conditions on a solution (C92). *)
From Coq Require Import List Arith Reals.
From Coquelicot Require Import Coquelicot.
From Verif Require Import Base Numbers SpecBasis ModelOde.
Import ListNotations.
Open Scope R_scope.

(** [co_0(t) y(t) + co_1(t) y'(t) + ...] at [t] *)
Fixpoint ode_from (e : nat) (co : list (list R)) (y : R -> R) (t : R) : R :=
  match co with [] => 0 | c :: co => poly_at c t * Derive_n y e t + ode_from (S e) co y t end.
Definition ode (co : list (list R)) (y : R -> R) (t : R) : R := ode_from 0 co y t.

Definition meets (y : R -> R) (c : cond) : Prop := Derive_n y (c_ord c) (c_pt c) = c_val c.

(** one polynomial of degree below the number of conditions for each condition: it meets that
    condition with value one and the others with value zero *)
Definition switching (cs : list cond) (phi : list (list R)) : Prop :=
  length phi = length cs /\ (forall p, In p phi -> (length p <= length cs)%nat) /\
  forall i j c p, nth_error cs i = Some c -> nth_error phi j = Some p ->
    Derive_n (poly_at p) (c_ord c) (c_pt c) = if (i =? j)%nat then 1 else 0.

(** values of a solution and its first [d] derivatives at one point *)
Definition initial (p : R) (v : nat -> R) (d : nat) : list cond := map (fun k => Cond k p (v k)) (seq 0 d).

(** the sum of the squared residuals of the equation at the points [xs] *)
Fixpoint misfit (co : list (list R)) (q : list R) (y : R -> R) (xs : list R) : R :=
  match xs with [] => 0 | x :: xs => (ode co y x - poly_at q x) ^ 2 + misfit co q y xs end.
