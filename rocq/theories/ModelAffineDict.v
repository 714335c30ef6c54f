(** The solvers on dictionaries (ModelSolveDict.v) with entries in a real field and the
    Moore-Penrose inverse for [np.linalg.pinv] and [np.linalg.lstsq]; arrays are converted
    from and to row-major lists. *)
From mathcomp Require Import all_ssreflect all_algebra.
From Verif Require Import ModelDict ModelPinv.
Set Implicit Arguments.
Unset Strict Implicit.
Unset Printing Implicit Defensive.
Import GRing.Theory.
Local Open Scope ring_scope.

Section Dict.
Variable F : realFieldType.
Definition to_mx m n (l : seq F) : 'M[F]_(m, n) := \matrix_(i, j) nth 0 l (i * n + j).
Definition of_col n (v : 'cV[F]_n) : seq F := [seq v i 0 | i <- enum 'I_n].
(** [np.dot(np.linalg.pinv(J), r)] *)
Definition l_solve (J : @arr F) (r : seq F) : seq F :=
  match a_shape J with
  | [:: m; n] => of_col (pinv (to_mx m n (a_data J)) *m to_mx m 1 r)
  | _ => [::]
  end.
End Dict.
