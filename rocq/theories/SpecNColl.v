(** Points on an axis of the grid, and polynomials in several variables (C89, C90). *)
From Coq Require Import List Arith Reals.
From Verif Require Import Base ModelBFPy SpecND.
Import ListNotations.

(** enough points on one axis to tell [deg + 1] functions apart (C73) *)
Definition enough (f : fam) (deg N : nat) : Prop :=
  match f with FS => (2 * ((deg + 1) / 2) + 2 <= N)%nat | _ => (deg + 1 <= N)%nat end.

(** a polynomial in [dim] variables: coefficients and exponents of its terms *)
Definition mpoly := list (R * list nat).
Definition mpoly_at (dim : nat) (q : mpoly) (X : pt) : R :=
  fold_right (fun t s => (fst t * prodn dim (fun k => X k ^ nth k (snd t) 0%nat) + s)%R) 0%R q.
Definition total_degree (dim deg : nat) (q : mpoly) : Prop :=
  Forall (fun t => length (snd t) = dim /\ (list_sum (snd t) <= deg)%nat) q.
(** point number [j] of the arrays [xs], one array for every variable *)
Definition point_of (xs : list (list R)) (j : nat) : pt := fun k => nth j (nth k xs []) 0%R.
