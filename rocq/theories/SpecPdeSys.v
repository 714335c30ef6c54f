(** Systems of nonlinear partial differential equations and their linearisation (C117). *)
From Coq Require Import List Arith Reals.
From Coquelicot Require Import Coquelicot.
From Verif Require Import Base Numbers SpecBasis ModelND SpecND SpecNColl ModelMtfc ModelPde SpecPde SpecPdeNl ModelUtfc ModelOde ModelOdeSysG SpecOdeSysG ModelDict ModelPdeSys.
Import ListNotations.
Open Scope R_scope.

(** a linear expression in the functions [z 0], [z 1], ... and their derivatives at [X] *)
Fixpoint psum_at (ts : list (nat * list ((pt -> R) * list nat))) (z : nat -> pt -> R) (X : pt) : R :=
  match ts with [] => 0 | t :: ts => pde (snd t) (z (fst t)) X + psum_at ts z X end.
(** value of an expression at [X] *)
Fixpoint qexp_at (e : qexp) (z : nat -> pt -> R) (X : pt) : R :=
  match e with
  | QLin ts => psum_at ts z X
  | QCoef g => g X
  | QAdd a b => qexp_at a z X + qexp_at b z X
  | QMul a b => qexp_at a z X * qexp_at b z X
  | QApp f a => f (qexp_at a z X)
  end.
(** its derivative at [z] in the direction [v] *)
Fixpoint dqexp_at (e : qexp) (z v : nat -> pt -> R) (X : pt) : R :=
  match e with
  | QLin ts => psum_at ts v X
  | QCoef g => 0
  | QAdd a b => dqexp_at a z v X + dqexp_at b z v X
  | QMul a b => dqexp_at a z v X * qexp_at b z X + qexp_at a z X * dqexp_at b z v X
  | QApp f a => Derive f (qexp_at a z X) * dqexp_at a z v X
  end.
(** the functions applied are differentiable, twice near the values they are applied to *)
Fixpoint qregular (e : qexp) (z : nat -> pt -> R) (X : pt) : Prop :=
  match e with
  | QLin _ | QCoef _ => True
  | QAdd a b | QMul a b => qregular a z X /\ qregular b z X
  | QApp f a => qregular a z X /\ (forall x, ex_derive f x) /\ twice_near f (qexp_at a z X)
  end.
(** only [k] functions occur, differentiated by no more variables than there are *)
Fixpoint fit_qexp (k dim : nat) (e : qexp) : Prop :=
  match e with
  | QLin ts => forall t, In t ts -> (fst t < k)%nat /\ orders_fit dim (snd t)
  | QCoef _ => True
  | QAdd a b | QMul a b => fit_qexp k dim a /\ fit_qexp k dim b
  | QApp _ a => fit_qexp k dim a
  end.
Definition solves_qeqn (z : nat -> pt -> R) (e : qeqn) : Prop := forall X, In X (q_pts e) -> qexp_at (q_lhs e) z X = 0.
(** no other functions that the expressions can give differ from [p] by a solution of the linearised
    equations *)
Definition isolatedQ {K} (jvpn : (list R -> R) -> list R -> list R -> R) (dim : nat) (fs : list (qfun (K:=K))) (eqs : list qeqn) (p : nat -> pt -> R) : Prop :=
  forall z, (forall i f, nth_error fs i = Some f -> exists xi, surface jvpn (q_u f) dim (q_css f) (q_phis f) xi (z i)) ->
  (forall e X, In e eqs -> In X (q_pts e) -> dqexp_at (q_lhs e) p (fun i Y => z i Y - p i Y) X = 0) ->
  forall i f, nth_error fs i = Some f -> forall X, z i X = p i X.
