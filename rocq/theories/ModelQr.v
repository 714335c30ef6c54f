(** ScaledQrLs (utils/TFCUtils.py 1687-1711) in exact arithmetic.

    [np.linalg.qr] is modelled by a relation: any reduced factorisation may be returned, so the
    theorems hold whichever signs the library picks.  [_MatPinv] (1714) is the exact
    Moore-Penrose inverse (no cutoff of small singular values).  The condition number of [r] is
    not computed. *)
From mathcomp Require Import all_ssreflect all_algebra.
From Verif Require Import ModelPinv.
Set Implicit Arguments.
Unset Strict Implicit.
Unset Printing Implicit Defensive.
Import GRing.Theory Num.Theory.
Local Open Scope ring_scope.

Section Qr.
Variable F : rcfType.
(** [S], 1703-1704; a column of zeros makes an entry infinite and the results NaN: [None] *)
Definition scales m n (A : 'M[F]_(m, n)) : option 'rV[F]_n :=
  if [forall j, \sum_i A i j * A i j != 0] then Some (\row_j (1 / Num.sqrt (\sum_i A i j * A i j))) else None.
(** [q, r = np.linalg.qr(M)], 1705, reduced: k = min(m, n) *)
Definition is_qr m n (M : 'M[F]_(m, n)) (q : 'M[F]_(m, minn m n)) (r : 'M[F]_(minn m n, n)) : Prop :=
  [/\ M = q *m r, q^T *m q = 1%:M & forall (i : 'I_(minn m n)) (j : 'I_n), (j < i)%N -> r i j = 0].
(** one-dimensional [B]: [S * multi_dot([_MatPinv(r), q.T, B])] is entry by entry, 1706 *)
Definition finish1 m n k (S : 'rV[F]_n) (q : 'M[F]_(m, k)) (r : 'M[F]_(k, n)) (B : 'cV[F]_m) : 'cV[F]_n :=
  \col_i (S 0 i * (pinv r *m (q^T *m B)) i 0).
(** two-dimensional [B]: NumPy lines [S], of shape (n,), up with the LAST axis of the (n, k) product *)
Definition bcast n k (S : 'rV[F]_n) (X : 'M[F]_(n, k)) : option {d : nat & 'M[F]_(n, d)} :=
  if eqP : reflect (n = k) _ is ReflectT e then Some (existT _ k (\matrix_(i, j) (S 0 (cast_ord (esym e) j) * X i j)))
  else if eqP : reflect (k = 1%N) _ is ReflectT e then Some (existT _ n (\matrix_(i, j) (S 0 j * X i (cast_ord (esym e) 0))))
  else if eqP : reflect (n = 1%N) _ is ReflectT e then Some (existT _ k (\matrix_(i, j) (S 0 (cast_ord (esym e) 0) * X i j)))
  else None.
Definition finish2 m n k p (S : 'rV[F]_n) (q : 'M[F]_(m, k)) (r : 'M[F]_(k, n)) (B : 'M[F]_(m, p)) : option {d : nat & 'M[F]_(n, d)} :=
  bcast S (pinv r *m (q^T *m B)).

(** [ScaledQrLs A B] may return [x] *)
Definition ScaledQrLs1 m n (A : 'M[F]_(m, n)) (B : 'cV[F]_m) (x : 'cV[F]_n) (r : 'M[F]_(minn m n, n)) : Prop :=
  exists S q, [/\ scales A = Some S, is_qr (A *m diag_mx S) q r & x = finish1 S q r B].
Definition ScaledQrLs2 m n p (A : 'M[F]_(m, n)) (B : 'M[F]_(m, p)) (x : option {d : nat & 'M[F]_(n, d)}) : Prop :=
  exists S q r, [/\ scales A = Some S, is_qr (A *m diag_mx S) q r & x = finish2 S q r B].
End Qr.
