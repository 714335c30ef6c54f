(** Which dtypes can be differentiated, and functions acting entry by entry on one argument (C98). *)
From Coq Require Import Reals List Bool Arith String.
From Coquelicot Require Import Coquelicot.
From Verif Require Import Base ModelEgradDt.
Import ListNotations.
Local Open Scope C_scope.

Definition has_derivatives (dt : ndtype) : Prop := dt <> Int64 /\ dt <> BoolT.
Definition float64_array (a : carg) : Prop := exists x, a = CA x /\ c_dt x = Float64.
(** arrays and dictionaries of arrays, none of them of integers or booleans *)
Definition differentiable_arg (a : carg) : Prop :=
  match a with
  | CA x => has_derivatives (c_dt x)
  | CD d => forall k x, In (k, x) d -> has_derivatives (c_dt x)
  | CN _ => False
  end.
(** the number of entries of an array of this shape *)
Fixpoint entries_of (sh : list nat) : nat := match sh with [] => 1 | k :: sh => k * entries_of sh end.
Definition c_wf (a : carr) : Prop := List.length (c_dat a) = entries_of (c_sh a).
Definition wf_carg (a : carg) : Prop :=
  match a with CA x => c_wf x | CD d => forall k x, In (k, x) d -> c_wf x | CN _ => True end.
(** the arguments with the [j]-th one replaced by an array *)
Definition c_put (j : nat) (w : carr) (args : list carg) : list carg := firstn j args ++ CA w :: skipn (S j) args.
(** near [args], entry [i] of [g]'s result depends on the [j]-th argument [x] through its entry [i] only, as [f i] *)
Definition entrywise (g : list carg -> carr) (j : nat) (args : list carg) (x : carr) (f : nat -> C -> C) : Prop :=
  forall w, c_dt w = c_dt x -> c_sh w = c_sh x -> List.length (c_dat w) = List.length (c_dat x) ->
    c_sh (g (c_put j w args)) = c_sh x /\ List.length (c_dat (g (c_put j w args))) = List.length (c_dat x) /\
    forall i, (i < List.length (c_dat x))%nat -> nth i (c_dat (g (c_put j w args))) 0 = f i (nth i (c_dat w) 0).
