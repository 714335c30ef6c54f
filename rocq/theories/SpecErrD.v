(** Vocabulary of C111. *)
From Coq Require Import ZArith Reals List.
From Flocq Require Import Core.
From Verif Require Import Base Numbers64 SpecND.
Open Scope R_scope.

(** dz/dx of the map of the domain to [-1, 1] *)
Definition slope (x0 xf : R) : R := 2 / (xf - x0).
(** sizes for which derivatives of order [d] of [m] functions stay far from overflow and underflow:
    for instance a thousand functions and d = 4, or a million and d = 1, on any domain
    of width between 2^-100 and 2^100 *)
Definition moderate (x0 xf : R) (m d : nat) : Prop :=
  (18 + 4 * INR d) * INR m ^ 2 <= bpow radix2 48 /\
  INR m ^ (2 * d + 1) <= bpow radix2 900 /\
  bpow radix2 (-900) <= slope x0 xf ^ d /\
  slope x0 xf ^ d * INR m ^ (2 * d) <= bpow radix2 900.

(** in several dimensions, orders [d] of differentiation: the size of the entry of the function number [v] *)
Definition slope_n (x0 xf : list f64) (d : list nat) (k : nat) : R :=
  slope (val (nth k x0 (f64_int 0))) (val (nth k xf (f64_int 0))) ^ nth k d 0%nat.
Definition size_n (dim : nat) (x0 xf : list f64) (d v : list nat) : R :=
  prodn dim (fun k => slope_n x0 xf d k * INR (Nat.max 1 (nth k v 0%nat)) ^ (2 * nth k d 0%nat)).
(** the products of these sizes are far from overflow and underflow *)
Definition moderate_n (dim : nat) (x0 xf : list f64) (m : nat) (d : list nat) : Prop :=
  (22 * INR dim + 9 * INR (list_sum d)) * INR m ^ 2 <= bpow radix2 52 /\
  (forall k, (k < dim)%nat -> moderate (val (nth k x0 (f64_int 0))) (val (nth k xf (f64_int 0))) m (nth k d 0%nat)) /\
  prodn dim (fun k => Rmax 1 (slope_n x0 xf d k * INR m ^ (2 * nth k d 0%nat))) <= bpow radix2 900 /\
  bpow radix2 (-900) <= prodn dim (fun k => Rmin 1 (slope_n x0 xf d k)).
