(** The script of tests/test_PDE.py 35-36 with the variables treated in another order (C120). *)
From Coq Require Import List Arith Reals.
From Verif Require Import Base Numbers ModelBFPy ModelND SpecND ModelUtfc ModelMtfc SpecBasis ModelPde.
Import ListNotations.
Open Scope R_scope.

(** what is needed to treat a variable: which one it is, its switching polynomials and its conditions *)
Definition part : Type := nat * (list (list R) * list pcond).
Definition treat (t : part) (z : pt -> R) : pt -> R := stage (fst t) (fst (snd t)) (snd (snd t)) z.
Definition stages_in (ts : list part) (z : pt -> R) : pt -> R := fold_left (fun z t => treat t z) ts z.
(** all variables, in their own order *)
Definition parts (dim : nat) (css : list (list pcond)) (phis : list (list (list R))) : list part := combine (seq 0 dim) (combine phis css).
(** the expression the script makes when it treats the variables in the order of [ts] *)
Definition surface_in jvpn (u : mtfc (T:=R)) (dim : nat) (ts : list part) (xi : nat -> R) (z : pt -> R) : Prop :=
  exists g, (forall X, free jvpn u dim xi X = Some (g X)) /\ forall X, z X = stages_in ts g X.
