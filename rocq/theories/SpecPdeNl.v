(** A linear partial differential expression plus a product of two, and its linearisation (C101). *)
From Coq Require Import List Arith Reals.
From Coquelicot Require Import Coquelicot.
From Verif Require Import Base Numbers SpecBasis ModelND SpecND SpecNColl ModelMtfc ModelPde SpecPde.
Import ListNotations.
Open Scope R_scope.

Definition pnl (co ca cb : list ((pt -> R) * list nat)) (z : pt -> R) (X : pt) : R := pde co z X + pde ca z X * pde cb z X.
(** its derivative at [p] in the direction [v] *)
Definition pnl_lin (co ca cb : list ((pt -> R) * list nat)) (p v : pt -> R) (X : pt) : R :=
  pde co v X + (pde ca p X * pde cb v X + pde ca v X * pde cb p X).
(** among the differences between [p] and the functions [Z] only zero solves the linearised equation
    at the first [N] points of [x] *)
Definition pisolated (Z : (pt -> R) -> Prop) (co ca cb : list ((pt -> R) * list nat)) (x : list (list R)) (N : nat) (p : pt -> R) : Prop :=
  forall z, Z z -> (forall j, (j < N)%nat -> pnl_lin co ca cb p (fun X => z X - p X) (point_of x j) = 0) -> forall X, z X = p X.
(** the box between [x0] and [xf] *)
Definition in_box (dim : nat) (x0 xf : list R) (X : pt) : Prop := forall k, (k < dim)%nat -> nth k x0 0 <= X k <= nth k xf 0.
(** two functions differ by at most [e] on the box, and so do their derivatives of the orders [d] *)
Definition close_on (dim : nat) (x0 xf : list R) (d : list nat) (z z' : pt -> R) (e : R) : Prop :=
  forall X, in_box dim x0 xf X -> Rabs (pdiff 0 d z X - pdiff 0 d z' X) <= e.
