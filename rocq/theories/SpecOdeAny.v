(** Linear differential equations with any coefficients, and the functions a script can reach (C102). *)
From Coq Require Import List Arith Reals.
From Coquelicot Require Import Coquelicot.
From Verif Require Import Base Numbers ModelBFPy SpecBasis ModelUtfc ModelOde SpecOde.
Import ListNotations.
Open Scope R_scope.

(** [co_0(t) y(t) + co_1(t) y'(t) + ...] at [t] *)
Fixpoint odeF_from (e : nat) (co : list (R -> R)) (y : R -> R) (t : R) : R :=
  match co with [] => 0 | c :: co => c t * Derive_n y e t + odeF_from (S e) co y t end.
Definition odeF (co : list (R -> R)) (y : R -> R) (t : R) : R := odeF_from 0 co y t.

Definition smoothF (y : R -> R) : Prop := forall e t, ex_derive_n y e t.

(** one smooth function for each condition: it meets that condition with value one and the others
    with value zero *)
Definition switchingF (cs : list cond) (phi : list (R -> R)) : Prop :=
  length phi = length cs /\ (forall p, In p phi -> smoothF p) /\
  forall i j c p, nth_error cs i = Some c -> nth_error phi j = Some p ->
    Derive_n p (c_ord c) (c_pt c) = if (i =? j)%nat then 1 else 0.

(** the sum of the squared residuals of the equation at the points [xs] *)
Fixpoint misfitF (co : list (R -> R)) (q : R -> R) (y : R -> R) (xs : list R) : R :=
  match xs with [] => 0 | x :: xs => (odeF co y x - q x) ^ 2 + misfitF co q y xs end.

(** a combination of given functions *)
Fixpoint combF (r : list R) (phi : list (R -> R)) (t : R) : R :=
  match r, phi with k :: r, p :: phi => k * p t + combF r phi t | _, _ => 0 end.
(** [y] is a combination of the functions whose values the basis matrix holds and of the switching
    functions *)
Definition spannedF (jvp : (R -> R) -> R -> R -> R) (u : utfc (T:=R)) (phi : list (R -> R)) (y : R -> R) : Prop :=
  exists (a : nat -> R) (r : list R), length r = length phi /\
  forall t, exists M row, utfc_H ROps RFun jvp u [t] 0 false = Some M /\ md M = [row] /\ y t = row_comb a row + combF r phi t.
