(** The Moore-Penrose inverse in exact arithmetic: what [np.linalg.pinv] approximates
    (used at utils/TFCUtils.py 853, 979, 1216, 1414 and by [_MatPinv], 1714).

    Simplifications: matrices over a real field instead of floating-point numbers; no rcond
    cutoff of small singular values. *)
From mathcomp Require Import all_ssreflect all_algebra.
Set Implicit Arguments.
Unset Strict Implicit.
Unset Printing Implicit Defensive.
Import GRing.Theory.
Local Open Scope ring_scope.

Section Pinv.
Variable F : realFieldType.
(** [A = B C] with [B] of full column rank and [C] of full row rank; then
    [A+ = C^T (C C^T)^-1 (B^T B)^-1 B^T]. *)
Definition pinv m n (A : 'M[F]_(m, n)) : 'M[F]_(n, m) :=
  (row_base A)^T *m invmx (row_base A *m (row_base A)^T)
  *m (invmx ((col_base A)^T *m col_base A) *m (col_base A)^T).
End Pinv.
