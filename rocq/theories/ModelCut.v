(** LS and NLLS with the solvers they call: [np.linalg.pinv] and [np.linalg.lstsq] compute a singular
    value decomposition and ignore the singular values that are small compared with the largest one
    (utils/TFCUtils.py 853-855, 1219-1222; pinv: those at most [10 max(m, n) eps] times the first,
    lstsq with [rcond=None]: those below [max(m, n) eps] times the first and those that are zero).
    Simplifications: exact arithmetic; the decomposition is any function, the two factors are any
    numbers that are not negative. *)
From mathcomp Require Import all_ssreflect all_algebra.
From Verif Require Import Base ModelPe ModelSolve ModelAffine.
Set Implicit Arguments.
Unset Strict Implicit.
Unset Printing Implicit Defensive.
Import GRing.Theory Num.Theory.
Local Open Scope ring_scope.

Section Cut.
Variables (F : realFieldType) (Ar : Type) (m n : nat).
(** [svd(a, full_matrices=False)]: left vectors, singular values, right vectors *)
Record svd := Svd { sv_k : nat; sv_u : 'M[F]_(m, sv_k); sv_s : 'rV[F]_sv_k; sv_v : 'M[F]_(n, sv_k) }.
(** [s[0]] *)
Definition sv_first (d : svd) : F := head 0 [seq sv_s d 0 j | j <- enum 'I_(sv_k d)].
(** [s > rtol * s[0]]; pinv *)
Definition keep_pinv (tau : F) (d : svd) (j : 'I_(sv_k d)) : bool := tau * sv_first d < sv_s d 0 j.
(** [(s > 0) & (s >= rcond * s[0])]; lstsq *)
Definition keep_lstsq (tau : F) (d : svd) (j : 'I_(sv_k d)) : bool := (0 < sv_s d 0 j) && (tau * sv_first d <= sv_s d 0 j).
(** the inverse with the other singular values ignored *)
Definition cut_inv (keep : forall d : svd, 'I_(sv_k d) -> bool) (d : svd) : 'M[F]_(n, m) :=
  sv_v d *m diag_mx (\row_j (if keep d j then (sv_s d 0 j)^-1 else 0)) *m (sv_u d)^T.
Variables (decomp : 'M[F]_(m, n) -> svd) (tau_p tau_l : F).
(** lines 853, 1220 *)
Definition cut_pinv_dot (A : 'M[F]_(m, n)) (r : 'cV[F]_m) : 'cV[F]_n := cut_inv (keep_pinv tau_p) (decomp A) *m r.
(** lines 855, 1222 *)
Definition cut_lstsq (A : 'M[F]_(m, n)) (r : 'cV[F]_m) : 'cV[F]_n := cut_inv (keep_lstsq tau_l) (decomp A) *m r.
Definition cutLS (jac : (seq (value F Ar n) -> 'cV[F]_m) -> seq (value F Ar n) -> 'M[F]_(m, n)) :=
  LS cut_pinv_dot cut_lstsq (@GRing.opp _) (@v_add F Ar n) (@v_zeros F Ar n) jac.
Definition cutNLLS (jac : (seq (value F Ar n) -> 'cV[F]_m) -> seq (value F Ar n) -> 'M[F]_(m, n)) :=
  NLLS cut_pinv_dot cut_lstsq (@v_sub F Ar n) (@v_ones F Ar n) (@v_maxabs F m) (@v_maxabs F n) (@v_gt F) jac.
End Cut.
