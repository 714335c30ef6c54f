(** Functions acting entry by entry, and partial derivatives. *)
From Coq Require Import Reals List Bool Arith String.
From Coquelicot Require Import Coquelicot.
From Verif Require Import Base ModelEgrad.
Import ListNotations.
Local Open Scope R_scope.

(** Arguments that go together: all of shape [sh], or zero-dimensional; at least one of shape [sh]. *)
Definition fits (sh : list nat) (a : arg) : Prop :=
  exists x, a = AArr x /\ wf_arr x /\ (a_sh x = sh \/ a_sh x = []).
Definition conform (n : nat) (sh : list nat) (args : list arg) : Prop :=
  List.length args = n /\ List.Forall (fits sh) args /\ exists x, In (AArr x) args /\ a_sh x = sh.
(** entry [i] of an argument; a zero-dimensional one is the same for all [i] *)
Definition entry (i : nat) (a : arg) : R :=
  match a with
  | AArr x => nth (match a_sh x with [] => 0%nat | _ => i end) (a_dat x) 0
  | _ => 0
  end.
Definition elementwise (n : nat) (f : list R -> R) (g : list arg -> arr) : Prop :=
  forall sh args, conform n sh args ->
    g args = Arr sh (map (fun i => f (map (entry i) args)) (seq 0 (numel sh))).
(** [p] with its [j]-th coordinate replaced *)
Definition put (j : nat) (x : R) (p : list R) : list R := firstn j p ++ x :: skipn (S j) p.
(** [f'] is the [j]-th partial derivative of the function [f] of [n] variables *)
Definition partial (n : nat) (f : list R -> R) (j : nat) (f' : list R -> R) : Prop :=
  forall p, List.length p = n -> is_derive (fun x => f (put j x p)) (nth j p 0) (f' p).
(** [f'] is the mixed derivative along [js], taken from left to right *)
Inductive partials (n : nat) : (list R -> R) -> list nat -> (list R -> R) -> Prop :=
| partials_nil f : partials n f [] f
| partials_cons f j js f1 f2 : (j < n)%nat -> partial n f j f1 -> partials n f1 js f2 -> partials n f (j :: js) f2.
(** [g'] behaves like [egrad(... egrad(egrad(g, j1), j2) ..., jm)] on arguments that go together *)
Inductive egrads (n : nat) : (list arg -> arr) -> list nat -> (list arg -> arr) -> Prop :=
| egrads_nil g : egrads n g [] g
| egrads_cons g j js g1 g2 : (forall sh args, conform n sh args -> is_egrad g j args (Some (g1 args))) ->
    egrads n g1 js g2 -> egrads n g (j :: js) g2.
