(** The solvers of ModelSolve.v with column vectors over a real field: exact arithmetic, the
    Moore-Penrose inverse for [np.linalg.pinv], its product with the right-hand side also for
    [np.linalg.lstsq] (both return the least-squares solution of least norm, computed
    differently).  Further arguments of the residual have any type [Ar]. *)
From mathcomp Require Import all_ssreflect all_algebra.
From Verif Require Import Base ModelPe ModelSolve ModelPinv.
Set Implicit Arguments.
Unset Strict Implicit.
Unset Printing Implicit Defensive.
Import GRing.Theory Num.Theory.
Local Open Scope ring_scope.

Section Affine.
Variables (F : realFieldType) (Ar : Type) (m n : nat).
Inductive value := Unk (x : 'cV[F]_n) | Arg (a : Ar).
Definition v_pinv_dot (J : 'M[F]_(m, n)) (r : 'cV[F]_m) : 'cV[F]_n := pinv J *m r.
(** the other arguments are never added to *)
Definition v_add (u : value) (d : 'cV[F]_n) : option value :=
  match u with Unk x => Some (Unk (x + d)) | Arg a => Some (Arg a) end.
Definition v_subt (u : value) (d : 'cV[F]_n) : value :=
  match u with Unk x => Unk (x - d) | Arg a => Arg a end.
Definition v_sub (u : value) (d : 'cV[F]_n) : option value := Some (v_subt u d).
Definition v_zeros (u : value) : value := match u with Unk _ => Unk 0 | Arg a => Arg a end.
Definition v_ones (u : value) : 'cV[F]_n := const_mx 1.
Definition v_maxabs k (v : 'cV[F]_k) : F := foldr Order.max 0 [seq `|v i 0| | i <- enum 'I_k].
Definition v_gt (a b : F) : bool := b < a.

(** LS, NLLS, LsClass and NllsClass on vectors; [jac] is automatic differentiation *)
Definition vLS (jac : (seq value -> 'cV[F]_m) -> seq value -> 'M[F]_(m, n)) :=
  LS v_pinv_dot v_pinv_dot (@GRing.opp _) v_add v_zeros jac.
Definition vNLLS (jac : (seq value -> 'cV[F]_m) -> seq value -> 'M[F]_(m, n)) :=
  NLLS v_pinv_dot v_pinv_dot v_sub v_ones (@v_maxabs m) (@v_maxabs n) v_gt jac.
Definition vLsClass_init (jac : (seq value -> 'cV[F]_m) -> seq value -> 'M[F]_(m, n)) :=
  LsClass_init v_pinv_dot v_pinv_dot (@GRing.opp _) jac.
Definition vLsClass_run := LsClass_run v_add (fun _ => false).
End Affine.
Arguments Unk {F Ar n} x.
Arguments Arg {F Ar n} a.
