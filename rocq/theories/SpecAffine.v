(** Residuals affine in the unknowns, and what is asked of their Jacobian. *)
From mathcomp Require Import all_ssreflect all_algebra.
From Verif Require Import ModelSolve ModelAffine SpecPinv.
Set Implicit Arguments.
Unset Strict Implicit.
Unset Printing Implicit Defensive.
Import GRing.Theory.
Local Open Scope ring_scope.

Section Spec.
Variables (F : realFieldType) (Ar : Type) (m n : nat).
Notation value := (@value F Ar n).
Implicit Types (res : seq value -> 'cV[F]_m).
(** with the further arguments [args], the residual is [A x + b] *)
Definition res_is res (args : seq value) (A : 'M[F]_(m, n)) (b : 'cV[F]_m) : Prop :=
  forall x, res (Unk x :: args) = affine A b x.
(** automatic differentiation finds the matrix of an affine function *)
Definition differentiates (jac : (seq value -> 'cV[F]_m) -> seq value -> 'M[F]_(m, n)) : Prop :=
  forall res args A b, res_is res args A b -> forall x, jac res (Unk x :: args) = A.
(** a Jacobian supplied by the caller, if any, is right *)
Definition user_jac (J : option (seq value -> 'M[F]_(m, n))) (args : seq value) (A : 'M[F]_(m, n)) : Prop :=
  forall j, J = Some j -> forall x, j (Unk x :: args) = A.
Definition valid_method (s : method_) : Prop := s <> OtherMethod.
End Spec.
