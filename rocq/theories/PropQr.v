(** C51: least squares by scaled QR. *)
From mathcomp Require Import all_ssreflect all_algebra.
From Verif Require Import ModelPinv SpecPinv ProofPinv ModelQr ProofQr.
Set Implicit Arguments.
Unset Strict Implicit.
Unset Printing Implicit Defensive.
Import GRing.Theory Num.Theory.
Local Open Scope ring_scope.

Section Claims.
Variable F : rcfType.

(** ** One right-hand side *)
(** Whatever factorisation is used the result minimises |A x - B|; the columns need only be non-zero. *)
Theorem C51_minimises m n (A : 'M[F]_(m, n)) B x r : ScaledQrLs1 A B x r -> minimises (affine A (- B)) x.
Proof.
case=> S [q [HS [HM Hq _] ->]]; rewrite finish1E (mulmxA (pinv r)) (qr_pinv _ Hq) -HM.
exact: scaled_minimises (diag_unit HS).
Qed.
(** With independent columns it returns, and what it returns is the only minimiser. *)
Lemma free_col m n (A : 'M[F]_(m, n)) j : row_free A^T -> col j A != 0.
Proof.
move=> H; apply/negP=> /eqP H0; have : delta_mx 0 j *m A^T = 0 :> 'rV_m by rewrite -rowE -tr_col H0 trmx0.
move/(congr1 (fun X => X *m pinvmx A^T)); rewrite -mulmxA mulmxVp // mulmx1 mul0mx => /matrixP/(_ 0 j).
by rewrite !mxE !eqxx => /eqP; rewrite oner_eq0.
Qed.
Theorem C51_one_rhs m n (A : 'M[F]_(m, n)) B : row_free A^T ->
  exists x, (exists r, ScaledQrLs1 A B x r) /\ minimises (affine A (- B)) x /\
    (forall y, minimises (affine A (- B)) y -> y = x) /\ (forall y r, ScaledQrLs1 A B y r -> y = x).
Proof.
move=> H; have [S HS] := scales_some (fun j => free_col j H).
have [q [r Hqr]] := qr_exists (A *m diag_mx S).
have Hx : ScaledQrLs1 A B (finish1 S q r B) r by exists S, q.
have Hu y : minimises (affine A (- B)) y -> y = finish1 S q r B.
  move=> Hy; have := minimisers_differ (C51_minimises Hx) Hy => /(congr1 (fun X => pinv A *m X)).
  rewrite mulmxA (pinv_left H) mul1mx mulmx0 => /eqP; rewrite subr_eq0 => /eqP //.
exists (finish1 S q r B); split; first by exists r.
split; first exact: C51_minimises Hx.
by split=> // y r' Hy; apply: Hu; apply: C51_minimises Hy.
Qed.
(** It returns whenever no column is zero, and yields NaN when one is. *)
Theorem C51_returns m n (A : 'M[F]_(m, n)) B : (forall j, col j A != 0) <-> exists x r, ScaledQrLs1 A B x r.
Proof.
split.
- move=> /scales_some[S HS]; have [q [r Hqr]] := qr_exists (A *m diag_mx S).
  by exists (finish1 S q r B), r, S, q.
- case=> x [r [S [q [HS _ _]]]] j; apply/negP=> /eqP H0.
  by move: HS; rewrite (scales_none H0).
Qed.
(** The factor whose condition number is reported has the Gram matrix of A with columns scaled to length one. *)
Theorem C51_condition m n (A : 'M[F]_(m, n)) B x r : ScaledQrLs1 A B x r ->
  forall i j, (r^T *m r) i j * (Num.sqrt (norm2 (col i A)) * Num.sqrt (norm2 (col j A))) = (A^T *m A) i j
    /\ (r^T *m r) i i = 1.
Proof.
case=> S [q [HS [HM Hq _] _]].
have E i j : (r^T *m r) i j = S 0 i * S 0 j * (A^T *m A) i j.
  have -> : r^T *m r = diag_mx S *m (A^T *m A) *m diag_mx S.
    have -> : r^T *m r = (q *m r)^T *m (q *m r) by rewrite trmx_mul mulmxA -(mulmxA r^T) Hq mulmx1.
    by rewrite -HM trmx_mul tr_diag_mx !mulmxA.
  by rewrite mul_mx_diag mul_diag_mx !mxE mulrAC.
have [H0 HS1] := scalesP HS.
have Hn k : Num.sqrt (norm2 (col k A)) != 0 by rewrite lt0r_neq0 // sqrtr_gt0 lt0r H0 norm2_ge0.
move=> i j; rewrite !E !HS1 !div1r; split.
  by rewrite mulrC mulrA mulrACA !divff // mulr1 mul1r.
have -> : (A^T *m A) i i = norm2 (col i A) by rewrite mxE; apply: eq_bigr => k _; rewrite !mxE expr2.
by rewrite -invfM -expr2 sqr_sqrtr ?norm2_ge0 // mulVf.
Qed.

(** ** Several right-hand sides *)
(** Correct when there is a single unknown ... *)
Theorem C51_several_partial m p (A : 'M[F]_(m, 1)) (B : 'M[F]_(m, p)) x : ScaledQrLs2 A B x -> p <> 1%N ->
  exists X : 'M[F]_(1, p), x = Some (existT _ p X) /\ forall j, minimises (affine A (- col j B)) (col j X).
Proof.
case=> S [q [r [HS Hqr ->]]] Hp; rewrite /finish2 /bcast.
case: eqP => [e|_]; first by case: Hp.
case: eqP => [e|_] //; case: eqP => [e|//]; eexists; split; first by [].
move=> j.
have Hx : ScaledQrLs1 A (col j B) (finish1 S q r (col j B)) r by exists S, q.
have E : pinv r *m (q^T *m col j B) = col j (pinv r *m (q^T *m B)) by rewrite !colE; move: (pinv r) => X; rewrite !mulmxA.
have := C51_minimises Hx; congr minimises; apply/matrixP=> i k.
rewrite [LHS]mxE [RHS]mxE [in RHS]mxE E; congr (S _ _ * _); first by apply: val_inj => /=; rewrite !ord1.
by rewrite mxE.
Qed.
(** ... otherwise never of the right shape unless there are as many unknowns as right-hand sides, ... *)
Theorem C51_several_shape_refuted m n p (A : 'M[F]_(m, n)) (B : 'M[F]_(m, p)) x : ScaledQrLs2 A B x -> n <> p -> n <> 1%N ->
  forall X : 'M[F]_(n, p), x <> Some (existT _ p X).
Proof.
case=> S [q [r [HS Hqr ->]]] Hn H1 X; rewrite /finish2 /bcast.
case: eqP => // _; case: eqP => [e [E _]|_]; first by apply: Hn.
by case: eqP.
Qed.
(** ... and then the wrong rows are scaled. *)
Theorem C51_several_refuted : exists (A B : 'M[F]_2), row_free A^T /\ (exists x, ScaledQrLs2 A B x) /\
  forall x, ScaledQrLs2 A B x -> exists X : 'M[F]_2, x = Some (existT _ 2%N X) /\ ~ minimises (affine A (- col 0 B)) (col 0 X).
Proof.
pose d : 'rV[F]_2 := \row_j (j.+1)%:R; pose A := diag_mx d.
have Ac (j : 'I_2) : norm2 (col j A) = (j.+1)%:R ^+ 2.
  rewrite /norm2 (bigD1 j) //= big1 ?addr0 => [|i Hi]; rewrite !mxE ?eqxx ?mulr1n //.
  by rewrite (negbTE Hi) mulr0n expr2 mulr0.
have As j : Num.sqrt (norm2 (col j A)) = (j.+1)%:R by rewrite Ac sqrtr_sqr ger0_norm ?ler0n.
have AU : A \in unitmx.
  by rewrite unitmxE det_diag unitfE; apply/prodf_neq0 => j _; rewrite mxE pnatr_eq0.
have Af : row_free A^T by rewrite row_free_unit unitmx_tr.
exists A, (const_mx 1); split=> //; split.
  have [S HS] := scales_some (fun j => free_col j Af); have [q [r Hqr]] := qr_exists (A *m diag_mx S).
  by eexists; exists S, q, r.
move=> x [S [q [r [HS [HM Hq _] ->]]]].
have [_ HS1] := scalesP HS.
have E1 : A *m diag_mx S = 1%:M.
  apply/matrixP=> i j; rewrite mul_mx_diag !mxE HS1 As.
  by case: (i =P j) => [->|_]; rewrite ?mulr0n ?mul0r // mulr1n div1r mulfV // pnatr_eq0.
have Ep : pinv r *m (q^T *m (const_mx 1 : 'M[F]_2)) = const_mx 1.
  rewrite mulmxA (qr_pinv _ Hq) -HM E1.
  have -> : pinv (1%:M : 'M[F]_2) = 1%:M; last by rewrite mul1mx.
  by have := @pinv_left F 2 2 1%:M; rewrite mulmx1 => -> //; rewrite row_free_unit unitmx_tr unitmx1.
rewrite /finish2 Ep /bcast; case: eqP => [e|//]; eexists; split; first by [].
move=> Hm; have := Hm (\col_i (i.+1)%:R^-1).
have -> : affine A (- col 0 (const_mx 1 : 'M[F]_2)) (\col_i (i.+1)%:R^-1) = 0.
  apply/matrixP=> i j; rewrite /affine mul_diag_mx !mxE mulfV ?pnatr_eq0 //.
  by rewrite subrr.
rewrite norm20 => Hle; have /norm2_eq0/matrixP/(_ 1 0) := Order.POrderTheory.le_anti (introT andP (conj Hle (norm2_ge0 _))).
rewrite /affine mul_diag_mx !mxE HS1 As /= => /eqP.
by rewrite div1r invr1 !mulr1 -[_ - 1]/(1 + 1 - 1) addrK oner_eq0.
Qed.
End Claims.

(** ** A case: A = (1, 0; 1, 1), independent but not orthogonal columns *)
Example C51_ex (F : rcfType) : row_free (block_mx 1%:M 0 1%:M 1%:M : 'M[F]_(1 + 1))^T.
Proof. by rewrite row_free_unit unitmx_tr unitmxE det_lblock !det1 mulr1 unitr1. Qed.

Print Assumptions C51_minimises.
Print Assumptions C51_one_rhs.
Print Assumptions C51_returns.
Print Assumptions C51_condition.
Print Assumptions C51_several_partial.
Print Assumptions C51_several_shape_refuted.
Print Assumptions C51_several_refuted.
