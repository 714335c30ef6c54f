(** A program that solves a partial differential equation with the library, as tests/test_PDE.py 14-51
    does: a constrained expression in several variables, built one variable after the other from
    [mtfc.H] and switching polynomials, and the residual at the collocation points.
    Simplifications: the equation is linear; expressions are evaluated point by point, which is what
    the array operations do; derivatives are those of the functions (what [egrad] gives, C28 and
    C53), also where one is taken of an expression that contains others. *)
From Coq Require Import List Arith Reals.
From Coquelicot Require Import Coquelicot.
From Verif Require Import Base Numbers ModelBFPy ModelND SpecND ModelUtfc ModelMtfc SpecBasis.
Import ListNotations.
Open Scope R_scope.

(** a condition in one variable: the derivative of order [pc_ord] in it, where it is [pc_pt], is
    [pc_val], a function of the other variables *)
Record pcond := PCond { pc_ord : nat; pc_pt : R; pc_val : pt -> R }.

(** [z(xi, x[0], Zero)], [egrad(z1, 2)(xi, x[0], One)]: the derivative in variable [k] with that variable
    fixed; test_PDE.py 35-36 *)
Definition imposed (k : nat) (c : pcond) (z : pt -> R) (X : pt) : R :=
  Derive_n (fun t => z (upd X k t)) (pc_ord c) (pc_pt c).

(** [sum of phi(x[k]) * (value - imposed)]; test_PDE.py 35-36 *)
Fixpoint corr (k : nat) (phi : list (list R)) (cs : list pcond) (z : pt -> R) (X : pt) : R :=
  match phi, cs with
  | p :: phi, c :: cs => poly_at p (X k) * (pc_val c X - imposed k c z X) + corr k phi cs z X
  | _, _ => 0
  end.
(** [z1] from the free part, [z] from [z1]; test_PDE.py 35-36 *)
Definition stage (k : nat) (phi : list (list R)) (cs : list pcond) (z : pt -> R) (X : pt) : R := z X + corr k phi cs z X.
Fixpoint stages (k : nat) (phis : list (list (list R))) (css : list (list pcond)) (z : pt -> R) : pt -> R :=
  match phis, css with
  | phi :: phis, cs :: css => stages (S k) phis css (stage k phi cs z)
  | _, _ => z
  end.

(** [egrad(egrad(z, 1), 1)] and so on: orders [d] in the variables from [k] on; test_PDE.py 39-41 *)
Fixpoint pdiff (k : nat) (d : list nat) (z : pt -> R) (X : pt) : R :=
  match d with
  | [] => z X
  | e :: d => pdiff (S k) d (fun Y => Derive_n (fun t => z (upd Y k t)) e (Y k)) X
  end.
(** the linear operator: coefficient functions and orders; test_PDE.py 43 *)
Fixpoint pde (co : list ((pt -> R) * list nat)) (z : pt -> R) (X : pt) : R :=
  match co with
  | [] => 0
  | (a, d) :: co => a X * pdiff 0 d z X + pde co z X
  end.

Section Script.
Context (jvpn : (list R -> R) -> list R -> list R -> R) (u : mtfc (T:=R)) (dim : nat).
(** [np.dot(H(x), xi)] at one point; test_PDE.py 35 *)
Definition free (xi : nat -> R) (X : pt) : option R :=
  M <- mtfc_H ROps RFun jvpn u (md (one_point dim X)) (repeat 0%nat dim) false ;;
  r <- hd_error (md M) ;;
  Some (row_comb xi r).
(** [z(xi, x)] for all [x]; test_PDE.py 35-36 *)
Definition surface (css : list (list pcond)) (phis : list (list (list R))) (xi : nat -> R) (z : pt -> R) : Prop :=
  exists g, (forall X, free xi X = Some (g X)) /\ forall X, z X = stages 0 phis css g X.
(** [r(xi)] at the points of [tfc.x]; test_PDE.py 43 *)
Definition residual (css : list (list pcond)) (phis : list (list (list R))) (co : list ((pt -> R) * list nat)) (q : pt -> R)
    (xi : nat -> R) (r : nat -> R) : Prop :=
  exists z, surface css phis xi z /\
  forall j, (j < m_N u)%nat -> let X := fun k => nth j (nth k (m_x u) []) 0 in r j = pde co z X - q X.
End Script.
