(** Vocabulary of C91: ELM bases in binary64. *)
From Coq Require Import ZArith Reals List Bool.
From Flocq Require Import Core BinarySingleNaN.
From Verif Require Import Base Numbers64 ModelBFPy ModelBFCpp SpecBasis ModelELM.
Import ListNotations.
Open Scope R_scope.

(** [BF.ELM<f>(x0, xf, nC, m)] with weights and biases set to [w], [b], then [.H(xs, d, full)];
    [E] is the library of functions that the implementation calls (C's or jax's), [jvp] is
    forward differentiation *)
Definition HE64 (jvp : (f64 -> f64) -> f64 -> f64 -> f64) (be : backend) (E : Fun f64) (f : elm) (w b : list f64) (x0 xf : f64)
    (nC : list Z) (xs : list f64) (d : nat) (full : bool) : option (mat f64) :=
  let B := elm_init F64 x0 xf nC (length w) in
  match be with
  | Py => py_elm_H F64 E jvp f w b B xs d full
  | Cpp => cpp_elm_H_mat F64 E f (bof w) (bof b) B xs d full
  end.

Definition infinite : f64 := B754_infinity false.
(** What is assumed of the functions: for an argument that is a number, [exp] gives a number that
    is not negative, or infinity; the others give numbers between -1 and 1. *)
Definition libm_ok (E : Fun f64) : Prop := forall x, fin x ->
  (fexp E x = infinite \/ fin (fexp E x) /\ 0 <= val (fexp E x)) /\
  (fin (ftanh E x) /\ Rabs (val (ftanh E x)) <= 1) /\
  (fin (fsin E x) /\ Rabs (val (fsin E x)) <= 1) /\ (fin (fcos E x) /\ Rabs (val (fcos E x)) <= 1).
(** [exp] overflows: exp 710 is more than 2^1024 *)
Definition exp_overflows (E : Fun f64) : Prop := forall x, fin x -> 710 <= val x -> fexp E x = infinite.
(** a weight or bias of moderate size *)
Definition moderate (v : f64) : Prop := fin v /\ Rabs (val v) <= bpow radix2 40.
(** a domain of moderate size, and a point of it *)
Definition moderate_domain (x0 xf : f64) : Prop :=
  fin x0 /\ fin xf /\ bpow radix2 (-40) <= val xf - val x0 <= bpow radix2 1000.
Definition in_domain (x0 xf x : f64) : Prop := fin x /\ val x0 <= val x <= val xf.
(** every entry is a number *)
Definition all_finite (M : mat f64) : Prop := forall row v, In row (md M) -> In v row -> fin v.

(** what jax computes for the tangent of [1. / (1. + exp(-w * x - b))] with tangent 1:
    - of [-w * x - b], the tangent is [-w * 1];
    - of [exp(y)] with tangent [g], it is [g * exp(y)];
    - of [1. + y], it is the tangent of [y];
    - of [1. / y], it is [(-g * 1.) * y ** -2], and [y ** -2] is [1 / (y * y)]. *)
Definition sigmoid_tangent (E : Fun f64) (w b z : f64) : f64 :=
  let e := fexp E (osub F64 (omul F64 (oopp F64 w) z) b) in
  let g := omul F64 (omul F64 (oopp F64 w) (o1 F64)) e in
  let y := oadd F64 (o1 F64) e in
  omul F64 (omul F64 (oopp F64 g) (o1 F64)) (odiv F64 (o1 F64) (omul F64 y y)).
(** the point as the basis maps it to [0, 1], and the exponent of its sigmoid *)
Definition mapped (x0 xf x : f64) : f64 :=
  oadd F64 (omul F64 (osub F64 x x0) (odiv F64 (osub F64 (o1 F64) (o0 F64)) (osub F64 xf x0))) (o0 F64).
Definition exponent (w b z : f64) : f64 := osub F64 (omul F64 (oopp F64 w) z) b.
