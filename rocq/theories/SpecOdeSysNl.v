(** Systems of differential equations with products, their linearisation, and partial derivatives in the
    entries of a dictionary (C110). *)
From Coq Require Import List Arith Reals.
From Coquelicot Require Import Coquelicot.
From Verif Require Import Base Numbers SpecBasis ModelUtfc ModelOde SpecOde SpecOdeAny ModelDict SpecDict SpecSolveDict ModelOdeSys SpecOdeSys ModelOdeSysNl.
Import ListNotations.
Open Scope R_scope.

(** left-hand side of an equation for the functions [y 0], [y 1], ... *)
Definition nonlin_at (e : neqn) (y : nat -> R -> R) (t : R) : R :=
  system_at (n_lin e) y t + system_at (n_a e) y t * system_at (n_b e) y t.
Definition solves_neqn (y : nat -> R -> R) (e : neqn) : Prop :=
  forall t, In t (n_pts e) -> nonlin_at e y t = n_q e t.
(** its derivative at [y] in the direction [v] *)
Definition linearised_at (e : neqn) (y v : nat -> R -> R) (t : R) : R :=
  system_at (n_lin e) v t + system_at (n_a e) v t * system_at (n_b e) y t + system_at (n_a e) y t * system_at (n_b e) v t.
(** no other family of functions the script allows solves the linearised equations at the points *)
Definition isolatedS {K} jvp (fs : list (sfun (K:=K))) (eqs : list neqn) (p : nat -> R -> R) : Prop :=
  forall y, allowed jvp fs y ->
  (forall e t, In e eqs -> In t (n_pts e) -> linearised_at e p (fun i s => y i s - p i s) t = 0) ->
  forall i f, nth_error fs i = Some f -> forall t, y i t = p i t.
(** the three linear expressions of an equation, as equations of C108 *)
Definition parts (eqs : list neqn) : list seqn :=
  flat_map (fun e => [SEqn (n_pts e) (n_lin e) (n_q e); SEqn (n_pts e) (n_a e) (fun _ => 0); SEqn (n_pts e) (n_b e) (fun _ => 0)]) eqs.

Section Partials.
Context {K : Type} (keq : K -> K -> bool).
Notation view := (list (K * @arr R)).
(** [x] added to element [j] of the array under [k] *)
Definition nudge (k : K) (j : nat) (x : R) (c : view) : view :=
  map (fun p => (fst p, if keq (fst p) k
    then Arr_ (a_shape (snd p)) (map (fun i => nth i (a_data (snd p)) 0 + (if (i =? j)%nat then x else 0)) (seq 0 (List.length (a_data (snd p)))))
    else snd p)) c.
(** [D r k j] is the partial derivative of residual [r] at [c] in that element *)
Definition partialsD (m : nat) (res : view -> list R) (c : view) (D : nat -> K -> nat -> R) : Prop :=
  forall r k a j, (r < m)%nat -> In (k, a) c -> (j < List.length (a_data a))%nat ->
    is_derive (fun x => nth r (res (nudge k j x c)) 0) 0 (D r k j).
(** [jacfwd] finds the partial derivatives where there are any *)
Definition differentiatesD (jacfwd : (view -> list R) -> view -> view) (c : view) : Prop :=
  forall res m D c', (forall c'', same_form c c'' -> List.length (res c'') = m) -> same_form c c' ->
  partialsD m res c' D -> jac_of m D c' (jacfwd res c').
(** one that does *)
Definition deriveD (res : view -> list R) (c : view) : view :=
  map (fun p => (fst p, block (List.length (res c)) (fun r k j => Derive (fun x => nth r (res (nudge k j x c)) 0) 0) p)) c.
(** every element of [z] differs from that of [c] by at most [x] *)
Definition near (x : R) (c z : view) : Prop :=
  forall i, Rabs (nth i (packed z) 0 - nth i (packed c) 0) <= x.
End Partials.
