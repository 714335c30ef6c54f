(** Systems of linear partial differential equations and their best fit (C118). *)
From Coq Require Import List Arith Reals.
From Coquelicot Require Import Coquelicot.
From Verif Require Import Base Numbers SpecND ModelPde ModelPdeSys SpecPdeSys.
Import ListNotations.
Open Scope R_scope.

(** the expression contains no unknown function *)
Fixpoint given_qexp (e : qexp) : Prop :=
  match e with
  | QLin _ => False
  | QCoef _ => True
  | QAdd a b | QMul a b => given_qexp a /\ given_qexp b
  | QApp _ a => given_qexp a
  end.
(** the expression is linear in the unknown functions, up to given functions *)
Fixpoint linear_qexp (e : qexp) : Prop :=
  match e with
  | QLin _ | QCoef _ => True
  | QAdd a b => linear_qexp a /\ linear_qexp b
  | QMul a b => given_qexp a /\ linear_qexp b \/ linear_qexp a /\ given_qexp b
  | QApp _ a => given_qexp a
  end.
(** the sum of the squares by which the functions miss the equations at their points *)
Definition misfit_points (e : qexp) (z : nat -> pt -> R) (Xs : list pt) : R :=
  fold_right (fun X s => Rsqr (qexp_at e z X) + s) 0 Xs.
Definition misfitQ (eqs : list qeqn) (z : nat -> pt -> R) : R :=
  fold_right (fun e s => misfit_points (q_lhs e) z (q_pts e) + s) 0 eqs.
(** functions that the expressions can give *)
Definition givable {K} (jvpn : (list R -> R) -> list R -> list R -> R) (dim : nat) (fs : list (qfun (K:=K))) (z : nat -> pt -> R) : Prop :=
  forall i f, nth_error fs i = Some f -> exists xi, surface jvpn (q_u f) dim (q_css f) (q_phis f) xi (z i).
