(** The arguments the original function should see. *)
From Coq Require Import List Arith Sorted.
Import ListNotations.

(** Go through the positions [i], [i+1], ...: a constant position takes the value given at
    construction, any other the next of the arguments given at the call. *)
Fixpoint fill {X} (consts : list nat) (i : nat) (args rest : list X) : list X :=
  match args with
  | [] => []
  | a :: args' =>
      if existsb (Nat.eqb i) consts then a :: fill consts (S i) args' rest
      else match rest with
           | r :: rest' => r :: fill consts (S i) args' rest'
           | [] => []
           end
  end.
(** Positions listed in increasing order, all of them below [n]. *)
Definition ascending (l : list nat) : Prop := StronglySorted lt l.
Definition below (n : nat) (l : list nat) : Prop := Forall (fun k => k < n) l.
Definition isin (C : list nat) (i : nat) : bool := existsb (Nat.eqb i) C.
(** The arguments, counted from [s], that are not at one of the positions [C]. *)
Fixpoint drop {X} (C : list nat) (s : nat) (args : list X) : list X :=
  match args with [] => [] | a :: t => if isin C s then drop C (S s) t else a :: drop C (S s) t end.
