(** Vocabulary of C79: the collocation points of [utfc] in binary64. *)
From Coq Require Import ZArith Reals List.
From Flocq Require Import Core BinarySingleNaN.
From Verif Require Import Base Numbers64 ModelBFPy ModelBFCpp ModelELM ModelUtfc.
Open Scope R_scope.

(** the cosine and the constant pi of the array library: pi to within half a unit in the last
    place or so, the cosine to within three quarters of one *)
Definition accurate (E : Fun f64) : Prop :=
  fin (fpi E) /\ Rabs (val (fpi E) - PI) <= bpow radix2 (-51) /\
  forall x, fin x -> Rabs (val x) <= 4 ->
    fin (fcos E x) /\ Rabs (val (fcos E x) - cos (val x)) <= 3 / 4 * bpow radix2 (-53).

(** a domain far from overflow and underflow *)
Definition ordinary_domain (x0 xf : f64) : Prop :=
  fin x0 /\ fin xf /\ Rabs (val x0) <= bpow radix2 1022 /\ Rabs (val xf) <= bpow radix2 1022 /\
  bpow radix2 (-1021) <= val xf - val x0 <= bpow radix2 1022.

(** a problem object of a given number [N] of points *)
Definition utfc64 (be : backend) (E : Fun f64) (f : fam) (N : nat) (nC : nc_arg) (deg : nat) (x0 xf : f64) :=
  utfc_init F64 E be (UB f) N nC deg (Some x0) (Some xf) nil nil.

(** attribute [x], entry [i] as a real number; [None] if there is none or it is infinite or NaN *)
Definition point64 (u : utfc (T:=f64)) (i : nat) : option R :=
  match nth_error (u_x u) i with
  | Some v => if is_finite v then Some (val v) else None
  | None => None
  end.
