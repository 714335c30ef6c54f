(** A program that solves a linear differential equation with the library, as tests/test_ODE.py 26-52
    does, with any of the library's one-dimensional bases, switching functions that are not
    polynomials, and any coefficients and right-hand side.
    Simplifications as in ModelOde.v: the equation is linear; derivatives are taken with the derivative
    matrices; [H(Zero)], which repeats one row, is one row. *)
From Coq Require Import List Arith Reals.
From Coquelicot Require Import Coquelicot.
From Verif Require Import Base Numbers ModelBFPy ModelUtfc SpecBasis ModelOde.
Import ListNotations.
Open Scope R_scope.

Section Ode.
Context (jvp : (R -> R) -> R -> R -> R).

(** the terms [beta_j(t) * (v_j - np.dot(H_j, xi))] and their derivatives; test_ODE.py 39-44 *)
Fixpoint switchF (phi : list (R -> R)) (cs : list cond) (ks : list R) (e : nat) (x : R) : R :=
  match phi, cs, ks with
  | p :: phi, c :: cs, k :: ks => Derive_n p e x * (c_val c - k) + switchF phi cs ks e x
  | _, _, _ => 0
  end.

(** [y(t, xi)], [yd], [ydd], ...; test_ODE.py 41-44 *)
Definition exprF (u : utfc (T:=R)) (cs : list cond) (phi : list (R -> R)) (xs : list R) (e : nat) (xi : nat -> R) : option (list R) :=
  F <- free jvp u xs e xi ;;
  ks <- mapM (fun c => r <- free jvp u [c_pt c] (c_ord c) xi ;; hd_error r) cs ;;
  Some (map (fun p => fst p + switchF phi cs ks e (snd p)) (combine F xs)).

(** the sum of coefficient times derivative, from order [e] on; test_ODE.py 47 *)
Fixpoint lhsF (u : utfc (T:=R)) (cs : list cond) (phi : list (R -> R)) (xs : list R) (e : nat) (co : list (R -> R)) (xi : nat -> R)
    : option (list R) :=
  match co with
  | [] => Some (map (fun _ => 0) xs)
  | c :: co =>
      Y <- exprF u cs phi xs e xi ;;
      Z <- lhsF u cs phi xs (S e) co xi ;;
      Some (map (fun p => c (snd p) * fst (fst p) + snd (fst p)) (combine (combine Y Z) xs))
  end.

(** [r(xi)]; test_ODE.py 47 *)
Definition residualF (u : utfc (T:=R)) (cs : list cond) (phi : list (R -> R)) (co : list (R -> R)) (q : R -> R) (xi : nat -> R)
    : option (list R) :=
  L <- lhsF u cs phi (u_x u) 0 co xi ;;
  Some (map (fun p => fst p - q (snd p)) (combine L (u_x u))).
End Ode.
