(** Functions of several variables, conditions on them, and their consistency (C95). *)
From Coq Require Import List Arith Reals ZArith.
From Coquelicot Require Import Coquelicot.
From Verif Require Import Base Numbers SpecBasis ModelND SpecND SpecNColl ModelMtfc ModelOde SpecOde ModelPde.
Import ListNotations.
Open Scope R_scope.

Definition smooth (g : R -> R) : Prop := forall e t, ex_derive_n g e t.
(** finite sums of products of smooth functions of one variable each *)
Inductive separable (dim : nat) : (pt -> R) -> Prop :=
| sep_zero z : (forall X, z X = 0) -> separable dim z
| sep_prod z g : (forall k, smooth (g k)) -> (forall X, z X = prodn dim (fun k => g k (X k))) -> separable dim z
| sep_plus z a b : separable dim a -> separable dim b -> (forall X, z X = a X + b X) -> separable dim z.

(** [z] meets the condition [c] in variable [k] *)
Definition meetsp (k : nat) (c : pcond) (z : pt -> R) : Prop := forall X, imposed k c z X = pc_val c X.
(** [css] lists the conditions in each variable *)
Definition among (css : list (list pcond)) (k : nat) (c : pcond) : Prop := exists cs, nth_error css k = Some cs /\ In c cs.
(** The values are separable, do not depend on the variable that the condition fixes, and fit together
    where two conditions in different variables meet. *)
Definition consistent (dim : nat) (css : list (list pcond)) : Prop :=
  length css = dim /\
  (forall k c, among css k c -> separable dim (pc_val c) /\ forall X t, pc_val c (upd X k t) = pc_val c X) /\
  (forall k c l c', among css k c -> among css l c' -> k <> l -> forall X, imposed k c (pc_val c') X = imposed l c' (pc_val c) X).
(** switching polynomials for the conditions of every variable *)
Definition one_variable (cs : list pcond) : list cond := map (fun c => Cond (pc_ord c) (pc_pt c) 0) cs.
Definition switchings (css : list (list pcond)) (phis : list (list (list R))) : Prop :=
  Forall2 (fun cs phi => switching (one_variable cs) phi) css phis.
(** polynomials whose degree in variable [k] is below [m k] *)
Inductive polynomial (dim : nat) (m : nat -> nat) : (pt -> R) -> Prop :=
| pol_zero z : (forall X, z X = 0) -> polynomial dim m z
| pol_prod z c (g : nat -> list R) : (forall k, (k < dim)%nat -> (length (g k) <= m k)%nat) ->
    (forall X, z X = c * prodn dim (fun k => poly_at (g k) (X k))) -> polynomial dim m z
| pol_plus z a b : polynomial dim m a -> polynomial dim m b -> (forall X, z X = a X + b X) -> polynomial dim m z.
(** the sum of the squares of the residual of the equation at the points of [tfc.x] *)
Definition pmisfit (co : list ((pt -> R) * list nat)) (q : pt -> R) (z : pt -> R) (x : list (list R)) (N : nat) : R :=
  fold_right (fun j s => (pde co z (point_of x j) - q (point_of x j)) ^ 2 + s) 0 (seq 0 N).
(** one order of derivative for each of the first variables at most *)
Definition orders_fit (dim : nat) (co : list ((pt -> R) * list nat)) : Prop := forall a d, In (a, d) co -> (length d <= dim)%nat.
(** the [nC] that says how many conditions there are in each variable *)
Definition counts (css : list (list pcond)) : list nc_ent := map (fun cs => EInt (Z.of_nat (length cs))) css.
