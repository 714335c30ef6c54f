(** Residuals with a second-order Taylor bound, and the size of a vector (C99). *)
From mathcomp Require Import all_ssreflect all_algebra.
From Verif Require Import ModelSolve ModelAffine SpecPinv.
Set Implicit Arguments.
Unset Strict Implicit.
Unset Printing Implicit Defensive.
Import GRing.Theory Num.Theory.
Local Open Scope ring_scope.

Section Spec.
Variable F : realFieldType.
(** every entry of [v] is at most [c] in absolute value *)
Definition within k (v : 'cV[F]_k) (c : F) : Prop := forall i, `|v i 0| <= c.
(** near [xs], [J] is the derivative of [r], with a quadratic remainder *)
Definition taylor m n (r : 'cV[F]_n -> 'cV[F]_m) (J : 'cV[F]_n -> 'M[F]_(m, n)) (xs : 'cV[F]_n) (rho L : F) : Prop :=
  forall x y d, within (x - xs) rho -> within (y - xs) rho -> within (y - x) d ->
    within (r y - r x - J x *m (y - x)) (L * d ^+ 2).
Definition same_kernel m n (A B : 'M[F]_(m, n)) : Prop := forall v : 'cV[F]_n, A *m v = 0 <-> B *m v = 0.
(** the derivative of the sum of squares of the residual, but for the factor 2 *)
Definition stationary m n (A : 'M[F]_(m, n)) (v : 'cV[F]_m) : Prop := forall j, \sum_i v i 0 * A i j = 0.
Variables (Ar : Type) (m n : nat).
Notation value := (@value F Ar n).
(** the residual and the Jacobian NLLS uses, given or automatic, as functions of the unknowns *)
Definition solves_with (jac : (seq value -> 'cV[F]_m) -> seq value -> 'M[F]_(m, n)) (res : seq value -> 'cV[F]_m)
    (args : seq value) (J : option (seq value -> 'M[F]_(m, n))) (r : 'cV[F]_n -> 'cV[F]_m) (j : 'cV[F]_n -> 'M[F]_(m, n)) : Prop :=
  forall x, res (Unk x :: args) = r x /\ (if J is Some f then f else jac res) (Unk x :: args) = j x.
(** products of affine functions, entry by entry, plus an affine function, and their derivative:
    the residual of an equation like y'' + f y y' = g *)
Definition prods (A B D : 'M[F]_(m, n)) (a b d : 'cV[F]_m) (x : 'cV[F]_n) : 'cV[F]_m :=
  \col_i ((A *m x + a) i 0 + (B *m x + b) i 0 * (D *m x + d) i 0).
Definition dprods (A B D : 'M[F]_(m, n)) (a b d : 'cV[F]_m) (x : 'cV[F]_n) : 'M[F]_(m, n) :=
  \matrix_(i, j) (A i j + (B *m x + b) i 0 * D i j + B i j * (D *m x + d) i 0).
End Spec.

(** x^3 - 2x + 2 and its derivative, as one residual in one unknown *)
Definition cubic (F : realFieldType) (x : 'cV[F]_1) : 'cV[F]_1 := const_mx (x 0 0 ^+ 3 - 2%:R * x 0 0 + 2%:R).
Definition dcubic (F : realFieldType) (x : 'cV[F]_1) : 'M[F]_(1, 1) := const_mx (3%:R * x 0 0 ^+ 2 - 2%:R).
