(** Least squares, stated without reference to any inverse. *)
From mathcomp Require Import all_ssreflect all_algebra.
Set Implicit Arguments.
Unset Strict Implicit.
Unset Printing Implicit Defensive.
Import GRing.Theory Num.Theory.
Local Open Scope ring_scope.

Section Spec.
Variable F : realFieldType.
(** squared Euclidean norm of a column *)
Definition norm2 n (v : 'cV[F]_n) : F := \sum_i (v i 0) ^+ 2.
(** [x] minimises the residual norm *)
Definition minimises m n (res : 'cV[F]_n -> 'cV[F]_m) (x : 'cV[F]_n) : Prop :=
  forall y, norm2 (res x) <= norm2 (res y).
(** ... and no other minimiser is as short *)
Definition shortest m n (res : 'cV[F]_n -> 'cV[F]_m) (x : 'cV[F]_n) : Prop :=
  forall y, minimises res y -> norm2 y <= norm2 x -> y = x.
(** the four conditions that characterise the Moore-Penrose inverse *)
Definition penrose m n (A : 'M[F]_(m, n)) (X : 'M[F]_(n, m)) : Prop :=
  [/\ A *m X *m A = A, X *m A *m X = X, (A *m X)^T = A *m X & (X *m A)^T = X *m A].
(** largest absolute entry, [np.max(np.abs(v))] *)
Definition affine m n (A : 'M[F]_(m, n)) (b : 'cV[F]_m) (x : 'cV[F]_n) : 'cV[F]_m := A *m x + b.
End Spec.
