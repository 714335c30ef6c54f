(** What is said about memory (C76). *)
From Coq Require Import List Arith Bool Permutation.
From Verif Require Import Base ModelRegistry ModelMemory.
Import ListNotations.

(** some variable refers to object [i] or to its array [c] *)
Definition held (s : pstate) (i : nat) : Prop := In (HObj i) (s_vars s) \/ In (HView i) (s_vars s).
(** the numbers of the blocks obtained by [k] *)
Definition blocks_of (k : akind) (s : pstate) : list nat := map k_id (filter (fun b => kind_eqb (k_kind b) k) (live (s_mem s))).
(** the blocks of the array variables *)
Fixpoint array_blocks (vars : list handle) : list nat :=
  match vars with [] => [] | HArr a :: r => a :: array_blocks r | _ :: r => array_blocks r end.
(** the numbers of elements obtained by [k] and not given back *)
Definition cells (k : akind) (s : pstate) : nat := list_sum (map k_size (filter (fun b => kind_eqb (k_kind b) k) (live (s_mem s)))).
(** the total dimension of the n-dimensional objects *)
Definition nd_dims (objs : list cobj) : nat := list_sum (map (fun o => if is_nd (p_cls o) then p_dim o else 0) objs).
(** the classes of the objects made *)
Fixpoint made (es : list pevent) : list bclass :=
  match es with [] => [] | ENew k _ _ _ _ _ :: r => k :: made r | _ :: r => made r end.
