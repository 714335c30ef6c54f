(** Complex least squares, stated without reference to any inverse (C97). *)
From mathcomp Require Import all_ssreflect all_algebra.
From Verif Require Import ModelSolve ModelCplx.
Set Implicit Arguments.
Unset Strict Implicit.
Unset Printing Implicit Defensive.
Import GRing.Theory Num.Theory.
Local Open Scope ring_scope.

Section Spec.
Variable F : numClosedFieldType.
(** the sum of the squared moduli *)
Definition cnorm2 n (v : 'cV[F]_n) : F := \sum_i `|v i 0| ^+ 2.
Definition cminimises m n (res : 'cV[F]_n -> 'cV[F]_m) (x : 'cV[F]_n) : Prop :=
  forall y, cnorm2 (res x) <= cnorm2 (res y).
Definition cshortest m n (res : 'cV[F]_n -> 'cV[F]_m) (x : 'cV[F]_n) : Prop :=
  forall y, cminimises res y -> cnorm2 y <= cnorm2 x -> y = x.
Definition caffine m n (A : 'M[F]_(m, n)) (b : 'cV[F]_m) (x : 'cV[F]_n) : 'cV[F]_m := A *m x + b.
(** the Penrose conditions, with conjugate transposes *)
Definition cpenrose m n (A : 'M[F]_(m, n)) (X : 'M[F]_(n, m)) : Prop :=
  [/\ A *m X *m A = A, X *m A *m X = X,
      (forall i j, (A *m X) i j = ((A *m X) j i)^* ) & (forall i j, (X *m A) i j = ((X *m A) j i)^* )].

Variables (Ar : Type) (m n : nat).
Notation value := (@cvalue F Ar n).
Definition cres_is (res : seq value -> 'cV[F]_m) (args : seq value) (A : 'M[F]_(m, n)) (b : 'cV[F]_m) : Prop :=
  forall x, res (CUnk x :: args) = caffine A b x.
Definition cdifferentiates (jac : (seq value -> 'cV[F]_m) -> seq value -> 'M[F]_(m, n)) : Prop :=
  forall res args A b, cres_is res args A b -> forall x, jac res (CUnk x :: args) = A.
Definition cuser_jac (J : option (dtype * (seq value -> 'M[F]_(m, n)))) (args : seq value) (A : 'M[F]_(m, n)) : Prop :=
  forall d j, J = Some (d, j) -> forall x, j (CUnk x :: args) = A.
Definition is_method (s : method_) : Prop := s <> OtherMethod.
End Spec.
