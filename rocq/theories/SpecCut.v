(** Singular value decompositions, and what is left of a matrix when small singular values are ignored (C104). *)
From mathcomp Require Import all_ssreflect all_algebra.
From Verif Require Import Base ModelSolve ModelCut.
Set Implicit Arguments.
Unset Strict Implicit.
Unset Printing Implicit Defensive.
Import GRing.Theory Num.Theory.
Local Open Scope ring_scope.

Section Spec.
Variables (F : realFieldType) (m n : nat).
(** a decomposition of [A]: orthonormal columns, singular values in descending order and not negative *)
Record svd_of (A : 'M[F]_(m, n)) (d : svd F m n) : Prop := {
  svd_eq : A = sv_u d *m diag_mx (sv_s d) *m (sv_v d)^T;
  svd_u : (sv_u d)^T *m sv_u d = 1%:M;
  svd_v : (sv_v d)^T *m sv_v d = 1%:M;
  svd_ge0 : forall j, 0 <= sv_s d 0 j;
  svd_desc : forall i j : 'I_(sv_k d), (i <= j)%N -> sv_s d 0 j <= sv_s d 0 i }.
(** the singular value [j] is ignored by the method with factor [tau]: it is at most (lstsq: below) [tau]
    times the largest, or zero *)
Definition ignored (s : method_) (tau : F) (d : svd F m n) (j : 'I_(sv_k d)) : Prop :=
  match s with
  | Lstsq => sv_s d 0 j = 0 \/ exists i, (forall i', sv_s d 0 i' <= sv_s d 0 i) /\ sv_s d 0 j < tau * sv_s d 0 i
  | _ => exists i, (forall i', sv_s d 0 i' <= sv_s d 0 i) /\ sv_s d 0 j <= tau * sv_s d 0 i
  end.
(** [B] is [A] with the ignored singular values replaced by zero *)
Definition truncated s tau (d : svd F m n) (B : 'M[F]_(m, n)) : Prop :=
  exists t : 'rV[F]_(sv_k d), B = sv_u d *m diag_mx t *m (sv_v d)^T /\
    forall j, (ignored s tau j -> t 0 j = 0) /\ (~ ignored s tau j -> t 0 j = sv_s d 0 j).
(** no singular value but zero is ignored *)
Definition well_conditioned s tau (d : svd F m n) : Prop := forall j : 'I_(sv_k d), ignored s tau j -> sv_s d 0 j = 0.
End Spec.
