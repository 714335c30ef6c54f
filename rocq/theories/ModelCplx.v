(** The solvers of ModelSolve.v with complex unknowns and residuals (utils/TFCUtils.py 766-886 and
    1086-1285, the parameter [holomorphic] included), and ScaledQrLs (1687-1711) for complex matrices.

    Numbers are elements of any algebraically closed field with conjugation.  [np.linalg.pinv] is the
    exact Moore-Penrose inverse, with conjugate transposes; [lstsq] gives the same as in ModelAffine.v.
    Which calls raise is decided by dtypes when jax traces the functions:
    [jacfwd] wants a real argument, or with [holomorphic] complex arguments and results, and
    [lax.while_loop] wants the unknowns and the step to keep their types. *)
From Coq Require Import ZArith.
From mathcomp Require Import all_ssreflect all_algebra.
From Verif Require Import Base ModelPe ModelSolve.
Set Implicit Arguments.
Unset Strict Implicit.
Unset Printing Implicit Defensive.
Import GRing.Theory Num.Theory.
Local Open Scope ring_scope.

Inductive dtype := Float | Complex.
Definition cplx (d : dtype) : bool := if d is Complex then true else false.
Definition promote (a b : dtype) : dtype := if a is Complex then Complex else b.

(** [jacfwd(res, 0, holomorphic=holomorphic)], 835-850, traces without an error *)
Definition jacfwd_traces (holomorphic : bool) (xi res : dtype) : bool :=
  if holomorphic then cplx xi && cplx res else ~~ cplx xi.
(** the step [ls(xi)] traces; a Jacobian of the caller's is not differentiated *)
Definition step_traces (holomorphic : bool) (xi res : dtype) (J : option dtype) : bool :=
  if J is Some _ then true else jacfwd_traces holomorphic xi res.
(** its dtype; an automatic Jacobian has that of the residual *)
Definition step_dtype (res : dtype) (J : option dtype) : dtype :=
  if J is Some j then promote j res else res.

Section Cplx.
Variable F : numClosedFieldType.
Definition herm m n (A : 'M[F]_(m, n)) : 'M[F]_(n, m) := map_mx conjC A^T.
Definition hpinv m n (A : 'M[F]_(m, n)) : 'M[F]_(n, m) :=
  herm (row_base A) *m invmx (row_base A *m herm (row_base A))
  *m (invmx (herm (col_base A) *m col_base A) *m herm (col_base A)).

Section Solve.
Variables (Ar : Type) (m n : nat).
Inductive cvalue := CUnk (x : 'cV[F]_n) | CArg (a : Ar).
Definition c_pinv_dot (J : 'M[F]_(m, n)) (r : 'cV[F]_m) : 'cV[F]_n := hpinv J *m r.
Definition c_add (u : cvalue) (d : 'cV[F]_n) : option cvalue :=
  match u with CUnk x => Some (CUnk (x + d)) | CArg a => Some (CArg a) end.
Definition c_subt (u : cvalue) (d : 'cV[F]_n) : cvalue :=
  match u with CUnk x => CUnk (x - d) | CArg a => CArg a end.
Definition c_sub (u : cvalue) (d : 'cV[F]_n) : option cvalue := Some (c_subt u d).
Definition c_zeros (u : cvalue) : cvalue := match u with CUnk _ => CUnk 0 | CArg a => CArg a end.
Definition c_ones (u : cvalue) : 'cV[F]_n := const_mx 1.
(** [np.max(np.abs(v))]; moduli are real, so they can be compared *)
Definition c_maxabs k (v : 'cV[F]_k) : F := foldr Order.max 0 [seq `|v i 0| | i <- enum 'I_k].
Definition c_gt (a b : F) : bool := b < a.

Variable jac : (seq cvalue -> 'cV[F]_m) -> seq cvalue -> 'M[F]_(m, n).
Implicit Types (res : seq cvalue -> 'cV[F]_m) (J : option (dtype * (seq cvalue -> 'M[F]_(m, n)))).
(** LS, 766-886: also the dtype of the result ([zXi += ls(zXi)], 881 and 885) *)
Definition cLS (holomorphic : bool) (dz dr : dtype) (zXi : cvalue) res args consts J s timer : option (dtype * cvalue * list nat) :=
  if step_traces holomorphic dz dr (omap fst J) then
    r <- LS c_pinv_dot c_pinv_dot (@GRing.opp _) c_add c_zeros jac zXi res args consts (omap snd J) s timer ;;
    Some (promote dz (step_dtype dr (omap fst J)), r.1, r.2)
  else None.
(** NLLS, 1086-1285: [lax.while_loop] traces the body before anything runs *)
Definition cNLLS (holomorphic : bool) (dz dr : dtype) fuel (xiInit : cvalue) res args consts J cond tol maxIter s timer printOut :=
  if step_traces holomorphic dz dr (omap fst J) && (if step_dtype dr (omap fst J) is Complex then cplx dz else ~~ cplx dz)
  then NLLS c_pinv_dot c_pinv_dot c_sub c_ones (@c_maxabs m) (@c_maxabs n) c_gt jac fuel xiInit res args consts (omap snd J) cond None tol maxIter s timer printOut
  else (NRaises, consts).
End Solve.

(** ScaledQrLs, 1687-1711: [A * A] and [q.T] do not conjugate; np.linalg.qr gives [q] with
    orthonormal columns, in the complex sense; the square root is any *)
Definition cscales m n (A : 'M[F]_(m, n)) (S : 'rV[F]_n) : Prop :=
  forall j, \sum_i A i j * A i j != 0 /\ exists s, s ^+ 2 = \sum_i A i j * A i j /\ S 0 j = 1 / s.
Definition is_cqr m n (M : 'M[F]_(m, n)) (q : 'M[F]_(m, minn m n)) (r : 'M[F]_(minn m n, n)) : Prop :=
  [/\ M = q *m r, herm q *m q = 1%:M & forall (i : 'I_(minn m n)) (j : 'I_n), (j < i)%N -> r i j = 0].
Definition cScaledQrLs m n (A : 'M[F]_(m, n)) (B : 'cV[F]_m) (x : 'cV[F]_n) : Prop :=
  exists S q r, [/\ cscales A S, is_cqr (A *m diag_mx S) q r & x = \col_i (S 0 i * (hpinv r *m (q^T *m B)) i 0)].
End Cplx.
Arguments CUnk {F Ar n} x.
Arguments CArg {F Ar n} a.
