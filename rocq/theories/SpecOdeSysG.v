(** Systems of nonlinear differential equations with unknown numbers, and their linearisation (C112). *)
From Coq Require Import List Arith Reals.
From Coquelicot Require Import Coquelicot.
From Verif Require Import Base Numbers SpecBasis ModelUtfc ModelOde SpecOde SpecOdeAny ModelDict SpecDict ModelOdeSys SpecOdeSys ModelOdeSysG.
Import ListNotations.
Open Scope R_scope.

(** value of an expression at [t] for the functions [y 0], [y 1], ... and the numbers [v k] *)
Fixpoint exp_at {K} (e : nexp (K:=K)) (y : nat -> R -> R) (v : K -> R) (t : R) : R :=
  match e with
  | XLin ts => system_at ts y t
  | XCoef g => g t
  | XEntry k => v k
  | XAdd a b => exp_at a y v t + exp_at b y v t
  | XMul a b => exp_at a y v t * exp_at b y v t
  | XApp f a => f (exp_at a y v t)
  end.
(** its derivative at [y], [v] in the direction [dy], [dv] *)
Fixpoint dexp_at {K} (e : nexp (K:=K)) (y : nat -> R -> R) (v : K -> R) (dy : nat -> R -> R) (dv : K -> R) (t : R) : R :=
  match e with
  | XLin ts => system_at ts dy t
  | XCoef g => 0
  | XEntry k => dv k
  | XAdd a b => dexp_at a y v dy dv t + dexp_at b y v dy dv t
  | XMul a b => dexp_at a y v dy dv t * exp_at b y v t + exp_at a y v t * dexp_at b y v dy dv t
  | XApp f a => Derive f (exp_at a y v t) * dexp_at a y v dy dv t
  end.
Definition solves_geqn {K} (y : nat -> R -> R) (v : K -> R) (e : geqn (K:=K)) : Prop :=
  forall t, In t (g_pts e) -> exp_at (g_lhs e) y v t = 0.
(** [f] has a bounded second derivative near [x] *)
Definition twice_near (f : R -> R) (x : R) : Prop :=
  exists eps M, 0 < eps /\ forall z, Rabs (z - x) <= eps -> ex_derive (Derive f) z /\ Rabs (Derive (Derive f) z) <= M.
(** the functions applied in an expression are differentiable, twice near the values they are applied to *)
Fixpoint regular {K} (e : nexp (K:=K)) (y : nat -> R -> R) (v : K -> R) (t : R) : Prop :=
  match e with
  | XLin _ | XCoef _ | XEntry _ => True
  | XAdd a b | XMul a b => regular a y v t /\ regular b y v t
  | XApp f a => regular a y v t /\ (forall x, ex_derive f x) /\ twice_near f (exp_at a y v t)
  end.
(** the linear expressions and the unknown numbers in an expression *)
Fixpoint lins {K} (e : nexp (K:=K)) : list (list (nat * list (R -> R))) :=
  match e with XLin ts => [ts] | XCoef _ | XEntry _ => [] | XAdd a b | XMul a b => lins a ++ lins b | XApp _ a => lins a end.
Fixpoint numbers {K} (e : nexp (K:=K)) : list K :=
  match e with XEntry k => [k] | XLin _ | XCoef _ => [] | XAdd a b | XMul a b => numbers a ++ numbers b | XApp _ a => numbers a end.
Definition linsG {K} (eqs : list (geqn (K:=K))) : list seqn :=
  flat_map (fun e => map (fun ts => SEqn (g_pts e) ts (fun _ => 0)) (lins (g_lhs e))) eqs.
Definition numbersG {K} (eqs : list (geqn (K:=K))) : list K := flat_map (fun e => numbers (g_lhs e)) eqs.
(** functions the script allows together with the numbers [v] *)
Definition allowedG {K} (jvp : (R -> R) -> R -> R -> R) (fs : list (sfun (K:=K))) (y : nat -> R -> R) (v : K -> R) : Prop :=
  forall i f, nth_error fs i = Some f -> spannedF jvp (f_u f) (f_phi f) (y i) /\ meetsS v f (y i).
(** no other family of functions and numbers the script allows solves the linearised equations at the points *)
Definition isolatedG {K} jvp (fs : list (sfun (K:=K))) (eqs : list (geqn (K:=K))) (p : nat -> R -> R) (q : K -> R) : Prop :=
  forall y v, allowedG jvp fs y v ->
  (forall e t, In e eqs -> In t (g_pts e) -> dexp_at (g_lhs e) p q (fun i s => y i s - p i s) (fun k => v k - q k) t = 0) ->
  (forall i f, nth_error fs i = Some f -> forall t, y i t = p i t) /\ forall k, In k (numbersG eqs) -> v k = q k.
(** [v k] is the number under [k] in the dictionary *)
Definition entriesG {K} (ks : list K) (c : list (K * @arr R)) (v : K -> R) : Prop :=
  forall k, In k ks -> exists a, In (k, a) c /\ a_shape a = [1%nat] /\ a_data a = [v k].
