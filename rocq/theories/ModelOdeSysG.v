(** The program of ModelOdeSys.v with equations that are any expressions in the unknown functions and
    their derivatives, built with sums, products and functions applied element by element, that can
    also contain unknown numbers, as
    examples/Hunter_Johnston_Dissertation/Chapter_4/Example_4_7/UnknownTime.py 49-79 does with the
    unknown time: [-xi['b']**2 * xp(z,xi['xi_x']) - alfa*x(z,xi['xi_x']) - beta*u(z,xi['xi_u'])].
    Simplification: derivatives are taken with the derivative matrices. *)
From Coq Require Import List Arith Reals.
From Coquelicot Require Import Coquelicot.
From Verif Require Import Base Numbers ModelBFPy ModelUtfc SpecBasis ModelOde ModelOdeAny ModelDict ModelSolveDict ModelOdeSys.
Import ListNotations.
Open Scope R_scope.

(** a linear expression in the functions (numbered) and their derivatives, a given function of the
    points, an unknown number ([xi['b']], an array of one element), sum, product, a function applied to
    every element ([np.sin(..)], [..**2]) *)
Inductive nexp {K : Type} := XLin (ts : list (nat * list (R -> R))) | XCoef (g : R -> R) | XEntry (k : K)
  | XAdd (a b : nexp) | XMul (a b : nexp) | XApp (f : R -> R) (a : nexp).
(** points and left-hand side, 64-66; the right-hand side is zero *)
Record geqn {K : Type} := GEqn { g_pts : list R; g_lhs : nexp (K:=K) }.
Arguments XLin {K}. Arguments XCoef {K}. Arguments XEntry {K}. Arguments XAdd {K}. Arguments XMul {K}. Arguments XApp {K}. Arguments GEqn {K}.

Section Sys.
Context (jvp : (R -> R) -> R -> R -> R) {K : Type} (keq : K -> K -> bool).
Notation view := (list (K * @arr R)).
(** elementwise operations on two arrays of the same length *)
Definition each2 (f : R -> R -> R) (l l' : list R) : list R := map (fun p => f (fst p) (snd p)) (combine l l').
Fixpoint expX (c : view) (fs : list (sfun (K:=K))) (xs : list R) (e : nexp) : option (list R) :=
  match e with
  | XLin ts => sumS jvp keq c fs ts xs
  | XCoef g => Some (map g xs)
  | XEntry k => v <- cond_val keq c (Entry k) ;; Some (map (fun _ => v) xs)
  | XAdd a b => A <- expX c fs xs a ;; B <- expX c fs xs b ;; Some (each2 Rplus A B)
  | XMul a b => A <- expX c fs xs a ;; B <- expX c fs xs b ;; Some (each2 Rmult A B)
  | XApp f a => A <- expX c fs xs a ;; Some (map f A)
  end.
(** [np.hstack(( Lx(z,xi), Lu(z,xi), H(z,xi) ))], 69 *)
Definition residualG (c : view) (fs : list (sfun (K:=K))) (eqs : list (geqn (K:=K))) : option (list R) :=
  l <- mapM (fun e => expX c fs (g_pts e) (g_lhs e)) eqs ;; Some (concat l).
End Sys.
