(** ScaledQrLs on complex matrices. *)
From Coq Require Import ZArith Lia.
From mathcomp Require Import all_ssreflect all_algebra.
From Verif Require Import Base ModelSolve ModelCplx SpecCplx ProofCplx.
Set Implicit Arguments.
Unset Strict Implicit.
Unset Printing Implicit Defensive.
Import GRing.Theory Num.Theory.
Local Open Scope ring_scope.

Section QR.
Variable F : numClosedFieldType.

Lemma rank_herm m n (A : 'M[F]_(m, n)) : \rank (herm A) = \rank A.
Proof. by rewrite /herm mxrank_map mxrank_tr. Qed.
Lemma hpinvV n (r : 'M[F]_n) : r \in unitmx -> hpinv r = invmx r.
Proof.
move=> Hr; apply/esym/(penrose_unique _ (pinv_penrose r)).
split; rewrite ?(mulmxV Hr) ?(mulVmx Hr) ?mul1mx //.
  by apply/hermP; apply/matrixP=> i j; rewrite hermE !mxE eq_sym; case: eqP; rewrite ?conjC1 ?conjC0.
by apply/hermP; apply/matrixP=> i j; rewrite hermE !mxE eq_sym; case: eqP; rewrite ?conjC1 ?conjC0.
Qed.

Lemma herm_unit n (r : 'M[F]_n) : (herm r \in unitmx) = (r \in unitmx).
Proof. by rewrite -!row_free_unit /row_free rank_herm. Qed.

Lemma qr_core m n k (A : 'M[F]_(m, n)) (D : 'M[F]_n) (q : 'M[F]_(m, k)) (r : 'M[F]_(k, n)) :
  (k <= n)%N -> D \in unitmx -> row_free (herm A) -> A *m D = q *m r -> herm q *m q = 1%:M ->
  (forall B, cminimises (caffine A (- B)) (D *m (hpinv r *m (q^T *m B)))) <-> q^T = herm q.
Proof.
move=> Hkn HD HA E Hq.
have Hk : k = n.
  apply/eqP; rewrite eqn_leq Hkn /=.
  have <- : \rank (A *m D) = n.
    rewrite mxrankMfree ?row_free_unit //.
    by move: HA; rewrite /row_free rank_herm => /eqP.
  by rewrite E (leq_trans (mxrankM_maxr _ _)) // rank_leq_row.
subst k.
have Hr : r \in unitmx.
  rewrite -row_full_unit /row_full eqn_leq rank_leq_row /=.
  have {1}<- : \rank (A *m D) = n.
    rewrite mxrankMfree ?row_free_unit //.
    by move: HA; rewrite /row_free rank_herm => /eqP.
  by rewrite E (leq_trans (mxrankM_maxr _ _)).
have EA : A = q *m (r *m invmx D) by rewrite mulmxA -E mulmxK.
have key B : herm A *m caffine A (- B) (D *m (hpinv r *m (q^T *m B)))
    = herm (r *m invmx D) *m ((q^T - herm q) *m B).
  have -> : caffine A (- B) (D *m (hpinv r *m (q^T *m B))) = q *m (q^T *m B) - B.
    by rewrite /caffine (hpinvV Hr) mulmxA E -mulmxA (mulKVmx Hr).
  rewrite {1}EA herm_mul -mulmxA; congr (_ *m _).
  by rewrite mulmxBr mulmxBl mulmxA Hq mul1mx.
have U : herm (r *m invmx D) \in unitmx by rewrite herm_unit unitmx_mul Hr unitmx_inv.
split=> [H|H B]; last by apply/minimisesP; rewrite key H subrr mul0mx mulmx0.
have H0 B : (q^T - herm q) *m B = 0 :> 'cV_n.
  apply: (can_inj (mulKmx U)); rewrite mulmx0 -key; apply/minimisesP; exact: H.
apply/eqP; rewrite -subr_eq0; apply/eqP/matrixP=> i j.
have /colP/(_ i) := H0 (delta_mx j 0).
by rewrite -colE => E0; move: E0; rewrite !mxE.
Qed.

Lemma scales_unit m n (A : 'M[F]_(m, n)) S : cscales A S -> diag_mx S \in unitmx.
Proof.
move=> HS; rewrite unitmxE unitfE det_diag; apply/prodf_neq0 => j _.
have [H0 [s [Es ->]]] := HS j; rewrite mul1r invr_neq0 //.
by apply: contraNneq H0 => E; rewrite -Es E expr0n.
Qed.
Lemma realP m k (q : 'M[F]_(m, k)) : q^T = herm q <-> forall i j, q i j \is Num.real.
Proof.
split=> [E i j|H]; first by apply/CrealP; rewrite -hermE -E mxE.
by apply/matrixP=> i j; rewrite hermE mxE; apply/esym/CrealP.
Qed.
Lemma scaleE n (S : 'rV[F]_n) (v : 'cV[F]_n) : \col_i (S 0 i * v i 0) = diag_mx S *m v.
Proof. by apply/colP=> i; rewrite mul_diag_mx !mxE. Qed.
End QR.
