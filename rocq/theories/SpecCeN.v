(** Constrained expressions in several variables: one CeSolver after the other (C119). *)
From Coq Require Import List.
From mathcomp Require Import all_ssreflect all_algebra.
From Verif Require Import ModelCe SpecCe.
Set Implicit Arguments.
Unset Strict Implicit.
Unset Printing Implicit Defensive.
Import GRing.Theory.
Local Open Scope ring_scope.

Section Spec.
Variable E : comUnitRingType.
(** the arguments of one CeSolver, and what is constant for its operators: numbers and functions of the
    other variables *)
Record block := Block { b_C : seq (E -> E); b_K : seq E; b_s : seq E; b_Sc : {pred E} }.
(** the expression of every CeSolver is the free function of the next one *)
Fixpoint nested (bs : seq block) (g : E) : option E :=
  match bs with
  | [::] => Some g
  | b :: bs => if expression (b_C b) (b_K b) (b_s b) g is Some u then nested bs u else None
  end.
(** operators are linear, their values and the wanted ones are constant for them, and the support
    functions determine them *)
Definition sound (b : block) : Prop :=
  [/\ b_C b <> [::], size (b_s b) = size (b_C b) /\ size (b_K b) = size (b_C b),
      divring_closed (b_Sc b) /\ (forall c, List.In c (b_C b) -> lin_over (b_Sc b) c),
      support (b_C b) (b_s b) \in unitmx &
      (forall c x, List.In c (b_C b) -> c x \in b_Sc b) /\ (forall k, k \in b_K b -> k \in b_Sc b)].
(** the second works on other variables than the first *)
Definition constant_for (a b : block) : Prop := forall x, x \in b_s b -> x \in b_Sc a.
(** different variables, operators that commute, and conditions that agree where they meet *)
Definition apart (a b : block) : Prop :=
  [/\ constant_for a b, constant_for b a,
      (forall i j, support (b_C b) (b_s b) i j \in b_Sc a) /\ (forall i j, support (b_C a) (b_s a) i j \in b_Sc b),
      forall c d x, List.In c (b_C a) -> List.In d (b_C b) -> c (d x) = d (c x) &
      forall i j, (i < size (b_C a))%N -> (j < size (b_C b))%N -> (nth id (b_C a) i) (nth 0 (b_K b) j) = (nth id (b_C b) j) (nth 0 (b_K a) i)].
(** any two of the list *)
Fixpoint all_apart (bs : seq block) : Prop :=
  match bs with [::] => True | b :: bs => (forall a, List.In a bs -> apart b a) /\ all_apart bs end.
End Spec.
