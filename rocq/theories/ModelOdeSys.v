(** A program that solves a system of linear differential equations, or one equation in pieces, with
    a TFCDict of unknowns, as examples/Hunter_Johnston_Dissertation/Chapter_4/Example_4_5/
    tfc_linearNonlinear.py 51-127 does: every unknown function has its own utfc object, coefficients
    and constrained expression; the value in a condition is a given number or an unknown of its own,
    which other conditions can share; the residuals of the equations are put one after the other.
    Simplifications as in ModelOdeAny.v: the equations are linear (the second one of the cited script
    is not: see ModelOdeSysNl.v); derivatives are taken with the derivative matrices. *)
From Coq Require Import List Arith Reals.
From Coquelicot Require Import Coquelicot.
From Verif Require Import Base Numbers ModelBFPy ModelUtfc SpecBasis ModelOde ModelOdeAny ModelDict ModelSolveDict.
Import ListNotations.
Open Scope R_scope.

Section Sys.
Context (jvp : (R -> R) -> R -> R -> R) {K : Type} (keq : K -> K -> bool).
Notation view := (list (K * @arr R)).

(** the value in a condition: a number ([y0], 84) or an entry of the dictionary ([xi['y1']], 85) *)
Inductive cval := Given (v : R) | Entry (k : K).
Record scond := SCond { sc_ord : nat; sc_pt : R; sc_val : cval }.
(** an unknown function: the key of its coefficients, its utfc object, its conditions and switching
    functions; 51-104 *)
Record sfun := SFun { f_key : K; f_u : utfc (T:=R); f_cs : list scond; f_phi : list (R -> R) }.
(** an equation: its points, the coefficients of the functions (by number) it contains, and its
    right-hand side; 109-112 *)
Record seqn := SEqn { e_pts : list R; e_terms : list (nat * list (R -> R)); e_q : R -> R }.

(** [Hs1(xs1).shape[1]], 119 *)
Definition width (u : utfc (T:=R)) : option nat :=
  M <- utfc_H ROps RFun jvp u (u_x u) 0 false ;; Some (mc M).
(** [xi['xi1']] in [np.dot(Hs1(x), xi['xi1'])]: its length must fit, 83 *)
Definition coeffs (c : view) (k : K) (n : nat) : option (nat -> R) :=
  a <- v_get keq c k ;;
  match a_shape a with [m] => if Nat.eqb m n then Some (fun i => nth i (a_data a) 0) else None | _ => None end.
(** [y0] or [xi['y1']], an array of one element, 84-86 *)
Definition cond_val (c : view) (v : cval) : option R :=
  match v with
  | Given x => Some x
  | Entry k => a <- v_get keq c k ;; match a_shape a with [1%nat] => hd_error (a_data a) | _ => None end
  end.
Definition conds (c : view) (cs : list scond) : option (list cond) :=
  mapM (fun s => v <- cond_val c (sc_val s) ;; Some (Cond (sc_ord s) (sc_pt s) v)) cs.
Definition pick_f (c : view) (f : sfun) : option ((nat -> R) * list cond) :=
  n <- width (f_u f) ;; xi <- coeffs c (f_key f) n ;; cs <- conds c (f_cs f) ;; Some (xi, cs).

(** [ys1(x, xi)], [yps1], [ypps1], 83-88 *)
Definition exprSys (c : view) (f : sfun) (xs : list R) (e : nat) : option (list R) :=
  p <- pick_f c f ;; exprF jvp (f_u f) (snd p) (f_phi f) xs e (fst p).
(** the terms of one function in an equation, 109 *)
Definition termS (c : view) (f : sfun) (xs : list R) (co : list (R -> R)) : option (list R) :=
  p <- pick_f c f ;; lhsF jvp (f_u f) (snd p) (f_phi f) xs 0 co (fst p).
Fixpoint sumS (c : view) (fs : list sfun) (terms : list (nat * list (R -> R))) (xs : list R) : option (list R) :=
  match terms with
  | [] => Some (map (fun _ => 0) xs)
  | t :: terms =>
      f <- nth_error fs (fst t) ;; Y <- termS c f xs (snd t) ;; Z <- sumS c fs terms xs ;;
      Some (map (fun p => fst p + snd p) (combine Y Z))
  end.
Definition eqS (c : view) (fs : list sfun) (e : seqn) : option (list R) :=
  L <- sumS c fs (e_terms e) (e_pts e) ;;
  Some (map (fun p => fst p - e_q e (snd p)) (combine L (e_pts e))).
(** [np.hstack((L1(xi), L2(xi)))], 114 *)
Definition residualS (c : view) (fs : list sfun) (eqs : list seqn) : option (list R) :=
  l <- mapM (eqS c fs) eqs ;; Some (concat l).
End Sys.
Arguments Given {K}. Arguments Entry {K}.
Arguments SCond {K}. Arguments sc_ord {K}. Arguments sc_pt {K}. Arguments sc_val {K}.
Arguments SFun {K}. Arguments f_key {K}. Arguments f_u {K}. Arguments f_cs {K}. Arguments f_phi {K}.
