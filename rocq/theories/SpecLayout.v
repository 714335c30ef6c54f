(** What a strided array holds, element by element (C75). *)
From Coq Require Import List Arith ZArith.
From Verif Require Import Base ModelWeights ModelLayout.
Import ListNotations.

(** the cell [i] of block [blk] holds [x] *)
Definition stored {T} (h : list (list T)) (blk : nat) (i : Z) (x : T) : Prop :=
  (0 <= i)%Z /\ exists l, nth_error h blk = Some l /\ nth_error l (Z.to_nat i) = Some x.
(** the array [v] is the list [l] *)
Definition is_array {T} (h : list (list T)) (v : view) (l : list T) : Prop :=
  length l = v_len v /\
  forall i x, nth_error l i = Some x -> stored h (v_blk v) (v_off v + Z.of_nat i * v_str v) x.
(** the array [v] is the matrix with the rows [M] *)
Definition is_array2 {T} (h : list (list T)) (v : view2) (M : list (list T)) : Prop :=
  length M = w_n0 v /\ Forall (fun r => length r = w_n1 v) M /\
  forall i j r x, nth_error M i = Some r -> nth_error r j = Some x ->
    stored h (w_blk v) (w_off v + Z.of_nat i * w_s0 v + Z.of_nat j * w_s1 v) x.
(** the matrix with the entries [g i j] *)
Definition table {T} (r c : nat) (g : nat -> nat -> T) : list (list T) := map (fun i => map (g i) (seq 0 c)) (seq 0 r).
