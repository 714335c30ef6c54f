(** Functions of several variables as combinations of the columns of a matrix (C90). *)
From Coq Require Import Reals.
From mathcomp Require Import all_ssreflect all_algebra.
From Verif Require Import Base Numbers ModelBFPy ModelND SpecND ModelMtfc SpecMtfc SpecNColl RealStruct SpecRecover.
Unset Printing Implicit Defensive.
Import GRing.Theory.
Local Open Scope ring_scope.

(** the values of [g] at the points of the arrays [xs] *)
Definition nvalues m (g : pt -> R) (xs : seq (seq R)) : 'cV[R]_m := \col_i g (point_of xs i).
(** the matrix of the [d]-th partial derivatives at the single point [X], times [xi], is [v] *)
Definition value_at jvpn (u : mtfc (T:=R)) dim full (d : seq nat) (xi : 'cV[R]_(mtfc_num u full)) (X : pt) (v : R) : Prop :=
  exists Mt, mtfc_H ROps RFun jvpn u (md (one_point dim X)) d full = Some Mt /\ mx_of 1 (mtfc_num u full) Mt *m xi = const_mx v.
(** the values at every point are the ones of [g] *)
Definition represents jvpn (u : mtfc (T:=R)) dim full (g : pt -> R) (xi : 'cV[R]_(mtfc_num u full)) : Prop :=
  forall X, value_at jvpn u dim full (List.repeat 0%N dim) xi X (g X).
