(** Nonlinear partial differential expressions and their linearisation (C116). *)
From Coq Require Import List Arith Reals.
From Coquelicot Require Import Coquelicot.
From Verif Require Import Base Numbers SpecBasis ModelND SpecND SpecNColl ModelMtfc ModelPde SpecPde SpecPdeNl ModelUtfc ModelOde ModelOdeSysG SpecOdeSysG ModelPdeG.
Import ListNotations.
Open Scope R_scope.

(** value at [X] for the function [z] *)
Fixpoint pexp_at (e : pexp) (z : pt -> R) (X : pt) : R :=
  match e with
  | PLin co => pde co z X
  | PCoef g => g X
  | PAdd a b => pexp_at a z X + pexp_at b z X
  | PMul a b => pexp_at a z X * pexp_at b z X
  | PApp f a => f (pexp_at a z X)
  end.
(** its derivative at [z] in the direction [v] *)
Fixpoint dpexp_at (e : pexp) (z v : pt -> R) (X : pt) : R :=
  match e with
  | PLin co => pde co v X
  | PCoef g => 0
  | PAdd a b => dpexp_at a z v X + dpexp_at b z v X
  | PMul a b => dpexp_at a z v X * pexp_at b z X + pexp_at a z X * dpexp_at b z v X
  | PApp f a => Derive f (pexp_at a z X) * dpexp_at a z v X
  end.
(** the functions applied are differentiable, twice near the values they are applied to *)
Fixpoint pregular (e : pexp) (z : pt -> R) (X : pt) : Prop :=
  match e with
  | PLin _ | PCoef _ => True
  | PAdd a b | PMul a b => pregular a z X /\ pregular b z X
  | PApp f a => pregular a z X /\ (forall x, ex_derive f x) /\ twice_near f (pexp_at a z X)
  end.
(** no more variables are differentiated by than there are *)
Fixpoint fit_exp (dim : nat) (e : pexp) : Prop :=
  match e with
  | PLin co => orders_fit dim co
  | PCoef _ => True
  | PAdd a b | PMul a b => fit_exp dim a /\ fit_exp dim b
  | PApp _ a => fit_exp dim a
  end.
(** among the differences between [p] and the functions [Z] only zero solves the linearised equation
    at the first [N] points of [x] *)
Definition gisolated (Z : (pt -> R) -> Prop) (e : pexp) (x : list (list R)) (N : nat) (p : pt -> R) : Prop :=
  forall z, Z z -> (forall j, (j < N)%nat -> dpexp_at e p (fun X => z X - p X) (point_of x j) = 0) -> forall X, z X = p X.
