(** Systems of linear differential equations whose unknown functions can share values at points (C108). *)
From Coq Require Import List Arith Reals.
From Coquelicot Require Import Coquelicot.
From Verif Require Import Base Numbers SpecBasis ModelUtfc ModelOde SpecOde SpecOdeAny ModelOdeSys.
Import ListNotations.
Open Scope R_scope.

(** left-hand side of an equation for the functions [y 0], [y 1], ... *)
Fixpoint system_at (terms : list (nat * list (R -> R))) (y : nat -> R -> R) (t : R) : R :=
  match terms with [] => 0 | p :: terms => odeF (snd p) (y (fst p)) t + system_at terms y t end.
(** the functions solve the equation at its points; the squared residuals of all equations *)
Definition solves_eqn (y : nat -> R -> R) (e : seqn) : Prop :=
  forall t, In t (e_pts e) -> system_at (e_terms e) y t = e_q e t.
Fixpoint misfit_eqn (terms : list (nat * list (R -> R))) (q : R -> R) (y : nat -> R -> R) (xs : list R) : R :=
  match xs with [] => 0 | t :: xs => (system_at terms y t - q t) ^ 2 + misfit_eqn terms q y xs end.
Fixpoint misfitS (eqs : list seqn) (y : nat -> R -> R) : R :=
  match eqs with [] => 0 | e :: eqs => misfit_eqn (e_terms e) (e_q e) y (e_pts e) + misfitS eqs y end.

(** [y] meets the conditions of [f] when the shared unknowns have the values [val] *)
Definition meetsS {K} (val : K -> R) (f : sfun (K:=K)) (y : R -> R) : Prop :=
  forall s, In s (f_cs f) ->
  Derive_n y (sc_ord s) (sc_pt s) = match sc_val s with Given v => v | Entry k => val k end.
(** functions the script allows: combinations of the kept basis functions and the switching functions
    that meet the given conditions and agree wherever they share an unknown *)
Definition allowed {K} (jvp : (R -> R) -> R -> R -> R) (fs : list (sfun (K:=K))) (y : nat -> R -> R) : Prop :=
  exists val, forall i f, nth_error fs i = Some f -> spannedF jvp (f_u f) (f_phi f) (y i) /\ meetsS val f (y i).
(** the conditions without their values *)
Definition plain {K} (s : scond (K:=K)) : cond := Cond (sc_ord s) (sc_pt s) 0.
