(** A program that solves a nonlinear partial differential equation with the library, as
    tests/test_PDE.py 14-51 does, for any residual built from the unknown function, its derivatives and
    given functions of the points with sums, products and functions applied element by element.  The
    constrained expression and its derivatives are those of ModelPde.v, with the same simplifications. *)
From Coq Require Import List Arith Reals.
From Coquelicot Require Import Coquelicot.
From Verif Require Import Base Numbers ModelND SpecND ModelMtfc SpecBasis ModelPde.
Import ListNotations.
Open Scope R_scope.

(** a linear differential expression ([zxx(xi,*x)+zyy(xi,*x)]), a given function of the points, sum,
    product, a function applied to every element ([np.exp(..)], [..**2]) *)
Inductive pexp := PLin (co : list ((pt -> R) * list nat)) | PCoef (g : pt -> R)
  | PAdd (a b : pexp) | PMul (a b : pexp) | PApp (f : R -> R) (a : pexp).
Section Script.
Context (jvpn : (list R -> R) -> list R -> list R -> R) (u : mtfc (T:=R)) (dim : nat).
(** the array [L(xi,*x)] for the points [Xs] *)
Fixpoint arrayP (z : pt -> R) (Xs : list pt) (e : pexp) : list R :=
  match e with
  | PLin co => map (pde co z) Xs
  | PCoef g => map g Xs
  | PAdd a b => map (fun p => fst p + snd p) (combine (arrayP z Xs a) (arrayP z Xs b))
  | PMul a b => map (fun p => fst p * snd p) (combine (arrayP z Xs a) (arrayP z Xs b))
  | PApp f a => map f (arrayP z Xs a)
  end.
(** the points of [tfc.x], row by row coordinates *)
Definition pointsP : list pt := map (fun j k => nth j (nth k (m_x u) []) 0) (seq 0 (m_N u)).
(** [r = lambda xi: ...] at the points of [tfc.x]; test_PDE.py 43 *)
Definition residual_pg (css : list (list pcond)) (phis : list (list (list R))) (e : pexp) (xi : nat -> R) (r : list R) : Prop :=
  exists z, surface jvpn u dim css phis xi z /\ r = arrayP z pointsP e.
End Script.
