(** A program that solves a nonlinear differential equation with the library, as tests/test_ODE.py
    does: the residual of y'' + f y y' = f2, here any linear part plus one product of derivatives.
    The constrained expression and its derivatives are those of ModelOde.v, with the same
    simplifications, but the factor of the product and the right-hand side are any functions. *)
From Coq Require Import List Arith Reals.
From Coquelicot Require Import Coquelicot.
From Verif Require Import Base Numbers ModelBFPy ModelUtfc SpecBasis ModelOde.
Import ListNotations.
Open Scope R_scope.

Section Ode.
Context (jvp : (R -> R) -> R -> R -> R).
(** [r(xi) = ydd(t,xi) + f(t)*y(t,xi)*yd(t,xi) - f2(t)]; test_ODE.py 50, 100.  [co] are the coefficients of
    the linear part, [g] is [f], [a] and [b] are the orders of the derivatives in the product. *)
Definition residual_nl (u : utfc (T:=R)) (cs : list cond) (phi : list (list R)) (co : list (list R)) (g : R -> R) (a b : nat) (q : R -> R)
    (xi : nat -> R) : option (list R) :=
  L <- lhs jvp u cs phi (u_x u) 0 co xi ;;
  Ya <- expr jvp u cs phi (u_x u) a xi ;;
  Yb <- expr jvp u cs phi (u_x u) b xi ;;
  Some (map (fun p => fst (fst (fst p)) + g (snd p) * snd (fst (fst p)) * snd (fst p) - q (snd p))
    (combine (combine (combine L Ya) Yb) (u_x u))).
End Ode.
