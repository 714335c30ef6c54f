(** Directions in the unknowns that change neither the residual nor the Jacobian (C99). *)
From mathcomp Require Import all_ssreflect all_algebra.
Set Implicit Arguments.
Unset Strict Implicit.
Unset Printing Implicit Defensive.
Import GRing.Theory.
Local Open Scope ring_scope.
Definition idle (F : fieldType) m n (r : 'cV[F]_n -> 'cV[F]_m) (j : 'cV[F]_n -> 'M[F]_(m, n)) (k : 'cV[F]_n) : Prop :=
  forall x, [/\ r (x + k) = r x, j (x + k) = j x & j x *m k = 0].
