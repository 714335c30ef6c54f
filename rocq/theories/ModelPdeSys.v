(** A program that solves a system of nonlinear partial differential equations with a TFCDict of
    unknowns, as examples/Carl_Leake_Dissertation/Chapter_3/Navier_Stokes_TFC_and_XTFC.py 29-76 does
    with a polynomial basis: every unknown function has a constrained expression and an array of
    coefficients in the dictionary; the residuals of the equations, any expressions in the functions and
    their derivatives, are put one after the other.  The constrained expressions and their derivatives
    are those of ModelPde.v, with the same simplifications.  The functions may have mtfc objects of
    their own; in the cited script they share one. *)
From Coq Require Import List Arith Reals.
From Coquelicot Require Import Coquelicot.
From Verif Require Import Base Numbers ModelBFPy ModelND SpecND ModelMtfc SpecBasis ModelPde ModelDict ModelSolveDict.
Import ListNotations.
Open Scope R_scope.

(** an unknown function: the key of its coefficients ([xi['xiu']], 63), the arguments of its mtfc
    object and the object (41), its conditions and switching functions (49-51) *)
Record qfun {K : Type} := QFun { q_key : K; q_be : backend; q_fam : fam; q_ns : list nat; q_nC : mnc_arg; q_deg : nat; q_x0 : list R; q_xf : list R;
  q_w : list R; q_b : list R; q_u : mtfc (T:=R); q_css : list (list pcond); q_phis : list (list (list R)) }.
(** a linear expression in the functions (numbered) and their derivatives ([fx(xiu,..)+fy(xiv,..)], 60),
    a given function of the points, sum, product, a function applied to every element *)
Inductive qexp := QLin (ts : list (nat * list ((pt -> R) * list nat))) | QCoef (g : pt -> R)
  | QAdd (a b : qexp) | QMul (a b : qexp) | QApp (f : R -> R) (a : qexp).
(** points and left-hand side, 60-62; the right-hand side is zero *)
Record qeqn := QEqn { q_pts : list pt; q_lhs : qexp }.

Section Sys.
Context (jvpn : (list R -> R) -> list R -> list R -> R) {K : Type} (keq : K -> K -> bool) (dim : nat).
Notation view := (list (K * @arr R)).
(** [f(xi['xiu'],..)], [f(xi['xiv'],..)] as functions of the points: the array under the key has as many
    elements as [H] has columns, 63 and 66 *)
Definition surfacesQ (c : view) (fs : list (qfun (K:=K))) (z : nat -> pt -> R) : Prop :=
  forall i f, nth_error fs i = Some f -> exists a, v_get keq c (q_key f) = Some a /\ a_shape a = [mtfc_num (q_u f) false] /\
    surface jvpn (q_u f) dim (q_css f) (q_phis f) (fun j => nth j (a_data a) 0) (z i).
Fixpoint sumQ (z : nat -> pt -> R) (Xs : list pt) (ts : list (nat * list ((pt -> R) * list nat))) : list R :=
  match ts with
  | [] => map (fun _ => 0) Xs
  | t :: ts => map (fun p => fst p + snd p) (combine (map (pde (snd t) (z (fst t))) Xs) (sumQ z Xs ts))
  end.
Fixpoint arrayQ (z : nat -> pt -> R) (Xs : list pt) (e : qexp) : list R :=
  match e with
  | QLin ts => sumQ z Xs ts
  | QCoef g => map g Xs
  | QAdd a b => map (fun p => fst p + snd p) (combine (arrayQ z Xs a) (arrayQ z Xs b))
  | QMul a b => map (fun p => fst p * snd p) (combine (arrayQ z Xs a) (arrayQ z Xs b))
  | QApp f a => map f (arrayQ z Xs a)
  end.
(** [np.hstack([L1(..),L2(..),L3(..)])], 63 *)
Definition residualQ (c : view) (fs : list (qfun (K:=K))) (eqs : list qeqn) (r : list R) : Prop :=
  exists z, surfacesQ c fs z /\ r = concat (map (fun e => arrayQ z (q_pts e) (q_lhs e)) eqs).
End Sys.
