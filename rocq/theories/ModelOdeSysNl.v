(** The program of ModelOdeSys.v with equations that also contain a product of two linear expressions in
    the unknown functions and their derivatives, as the second equation of
    examples/Hunter_Johnston_Dissertation/Chapter_4/Example_4_5/tfc_linearNonlinear.py does, 110-114:
    [ypps2(xs2, xi) + ys2(xs2, xi)*yps2(xs2, xi) - f(xs2)].  An equation without a product has [n_a = []].
    Simplification: derivatives are taken with the derivative matrices. *)
From Coq Require Import List Arith Reals.
From Coquelicot Require Import Coquelicot.
From Verif Require Import Base Numbers ModelBFPy ModelUtfc SpecBasis ModelOde ModelOdeAny ModelDict ModelSolveDict ModelOdeSys.
Import ListNotations.
Open Scope R_scope.

(** points, linear part, the two factors, right-hand side; 109-111 *)
Record neqn := NEqn { n_pts : list R; n_lin : list (nat * list (R -> R)); n_a : list (nat * list (R -> R));
  n_b : list (nat * list (R -> R)); n_q : R -> R }.

Section Sys.
Context (jvp : (R -> R) -> R -> R -> R) {K : Type} (keq : K -> K -> bool).
Notation view := (list (K * @arr R)).
(** [L1(xi)], [L2(xi)], 109-112 *)
Definition eqN (c : view) (fs : list (sfun (K:=K))) (e : neqn) : option (list R) :=
  L <- sumS jvp keq c fs (n_lin e) (n_pts e) ;;
  A <- sumS jvp keq c fs (n_a e) (n_pts e) ;;
  B <- sumS jvp keq c fs (n_b e) (n_pts e) ;;
  Some (map (fun p => fst (fst p) + fst (snd (fst p)) * snd (snd (fst p)) - n_q e (snd p)) (combine (combine L (combine A B)) (n_pts e))).
(** [np.hstack((L1(xi), L2(xi)))], 114 *)
Definition residualN (c : view) (fs : list (sfun (K:=K))) (eqs : list neqn) : option (list R) :=
  l <- mapM (eqN c fs) eqs ;; Some (concat l).
End Sys.
