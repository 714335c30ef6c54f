(** A program that solves a nonlinear partial differential equation with the library, as
    tests/test_PDE.py 14-51 does: the residual of z_xx + z_yy + z z_y = f, here any linear part plus one
    product of linear expressions.  The constrained expression and its derivatives are those of
    ModelPde.v, with the same simplifications. *)
From Coq Require Import List Arith Reals.
From Coquelicot Require Import Coquelicot.
From Verif Require Import Base Numbers ModelND SpecND ModelMtfc SpecBasis ModelPde.
Import ListNotations.
Open Scope R_scope.

Section Script.
Context (jvpn : (list R -> R) -> list R -> list R -> R) (u : mtfc (T:=R)) (dim : nat).
(** [r(xi) = zxx(xi,*x)+zyy(xi,*x)+z(xi,*x)*zy(xi,*x)-...] at the points of [tfc.x]; test_PDE.py 43.  [co] is
    the linear part, [ca] and [cb] are the factors of the product. *)
Definition residual_pnl (css : list (list pcond)) (phis : list (list (list R))) (co ca cb : list ((pt -> R) * list nat)) (q : pt -> R)
    (xi : nat -> R) (r : nat -> R) : Prop :=
  exists z, surface jvpn u dim css phis xi z /\
  forall j, (j < m_N u)%nat -> let X := fun k => nth j (nth k (m_x u) []) 0 in
    r j = pde co z X + pde ca z X * pde cb z X - q X.
End Script.
