(** A program that solves a linear differential equation with the library, as tests/test_ODE.py 26-52
    and the README's scripts do: a constrained expression built from [utfc.H] and switching
    polynomials, its derivatives, and the residual at the collocation points.
    Simplifications: the coefficients and the right-hand side are polynomials; the equation is linear;
    derivatives are taken with the derivative matrices (what [egrad] gives for [H], C27 and C53);
    [H(Zero)], which repeats one row, is one row. *)
From Coq Require Import List Arith Reals.
From Coquelicot Require Import Coquelicot.
From Verif Require Import Base Numbers ModelBFPy ModelUtfc SpecBasis.
Import ListNotations.
Open Scope R_scope.

(** the condition that the derivative of order [c_ord] at [c_pt] is [c_val] *)
Record cond := Cond { c_ord : nat; c_pt : R; c_val : R }.

Section Ode.
Context (jvp : (R -> R) -> R -> R -> R).

(** [np.dot(H(x), xi)] and the same with [dH], [d2H], ...; test_ODE.py 30-36, 41 *)
Definition free (u : utfc (T:=R)) (xs : list R) (e : nat) (xi : nat -> R) : option (list R) :=
  M <- utfc_H ROps RFun jvp u xs e false ;;
  Some (map (row_comb xi) (md M)).

(** the terms [beta_j(t) * (v_j - np.dot(H_j, xi))]; test_ODE.py 39-41 *)
Fixpoint switch (phi : list (list R)) (cs : list cond) (ks : list R) (e : nat) (x : R) : R :=
  match phi, cs, ks with
  | p :: phi, c :: cs, k :: ks => Derive_n (poly_at p) e x * (c_val c - k) + switch phi cs ks e x
  | _, _, _ => 0
  end.

(** [y(t, xi)], [yd], [ydd], ...; test_ODE.py 41-44 *)
Definition expr (u : utfc (T:=R)) (cs : list cond) (phi : list (list R)) (xs : list R) (e : nat) (xi : nat -> R) : option (list R) :=
  F <- free u xs e xi ;;
  ks <- mapM (fun c => r <- free u [c_pt c] (c_ord c) xi ;; hd_error r) cs ;;
  Some (map (fun p => fst p + switch phi cs ks e (snd p)) (combine F xs)).

(** the sum of coefficient times derivative, from order [e] on; test_ODE.py 47 *)
Fixpoint lhs (u : utfc (T:=R)) (cs : list cond) (phi : list (list R)) (xs : list R) (e : nat) (co : list (list R)) (xi : nat -> R)
    : option (list R) :=
  match co with
  | [] => Some (map (fun _ => 0) xs)
  | c :: co =>
      Y <- expr u cs phi xs e xi ;;
      Z <- lhs u cs phi xs (S e) co xi ;;
      Some (map (fun p => poly_at c (snd p) * fst (fst p) + snd (fst p)) (combine (combine Y Z) xs))
  end.

(** [r(xi)]; test_ODE.py 47 *)
Definition residual (u : utfc (T:=R)) (cs : list cond) (phi : list (list R)) (co : list (list R)) (q : list R) (xi : nat -> R)
    : option (list R) :=
  L <- lhs u cs phi (u_x u) 0 co xi ;;
  Some (map (fun p => fst p - poly_at q (snd p)) (combine L (u_x u))).
End Ode.
