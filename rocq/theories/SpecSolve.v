(** What iterating a least-squares step means. *)
From Coq Require Import List Bool ZArith.
From Verif Require Import ModelSolve.
Import ListNotations.

Section Spec.
Context {U D V T : Type}.
Context (sub : U -> D -> U) (upd : U -> D) (r : U -> V).
Context (maxabsV : V -> T) (maxabsD : D -> T) (gt : T -> T -> bool).

(** the unknowns after [k] steps from [x] *)
Fixpoint iterate (k : nat) (x : U) : U :=
  match k with O => x | S k => let y := iterate k x in sub y (upd y) end.
(** the step that led there; [d0] before the first one *)
Definition last_step (d0 : D) (k : nat) (x : U) : D :=
  match k with O => d0 | S k => upd (iterate k x) end.
(** one of the three reasons to stop after [k] steps holds *)
Definition stops (tol : T) (maxIter : Z) (d0 : D) (x : U) (k : nat) : Prop :=
  gt (maxabsV (r (iterate k x))) tol = false \/ (maxIter <= Z.of_nat k)%Z \/
  gt (maxabsD (last_step d0 k x)) tol = false.
(** [k] is the first number of steps at which one holds *)
Definition first_stop tol maxIter d0 x (k : nat) : Prop :=
  stops tol maxIter d0 x k /\ forall j, j < k -> ~ stops tol maxIter d0 x j.
(** the lines printed for [k] steps: the count before and the residual after each *)
Definition report (x : U) (k : nat) : list (Z * T) :=
  map (fun j => (Z.of_nat j, maxabsV (r (iterate (S j) x)))) (seq 0 k).
End Spec.

(** Two runs give the caller the same unknowns and the same iteration count. *)
Definition same_answer {U T} (a b : @nlls_outcome U T) : Prop :=
  match a, b with
  | NReturns r, NReturns r' => n_xi r = n_xi r' /\ n_it r = n_it r'
  | _, _ => False
  end.
(** Successive calls of [run] on one object. *)
Fixpoint nruns {U V D T} (subX : U -> D -> option U) (ones : U -> D) (maxabsV : V -> T) (maxabsD : D -> T)
    (gt : T -> T -> bool) (fuel : nat) (o : nllsobj) (calls : list (U * list U)) : list nlls_outcome :=
  match calls with
  | [] => []
  | (x, rest) :: t =>
      let (r, o') := NllsClass_run subX ones maxabsV maxabsD gt fuel o x rest in
      r :: nruns subX ones maxabsV maxabsD gt fuel o' t
  end.
