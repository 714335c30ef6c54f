From mathcomp Require Import all_ssreflect all_algebra.
From Verif Require Import ModelPinv SpecPinv ProofPinv ModelQr.
Set Implicit Arguments.
Unset Strict Implicit.
Unset Printing Implicit Defensive.
Import GRing.Theory Num.Theory.
Local Open Scope ring_scope.

Section Proofs.
Variable F : rcfType.

(** ** Every matrix has a factorisation *)
Lemma tr11 (X : 'M[F]_1) : X^T = X.
Proof. by apply/matrixP=> i j; rewrite mxE !ord1. Qed.
Lemma householder m (a : 'cV[F]_(1 + m)) :
  exists2 H : 'M[F]_(1 + m), H^T *m H = 1%:M & H *m a = col_mx (Num.sqrt (norm2 a))%:M 0.
Proof.
set e := col_mx (Num.sqrt (norm2 a))%:M 0.
pose v := a - e; case: (eqVneq v 0) => [v0|v0].
  by exists 1%:M; rewrite ?trmx1 mul1mx //; apply/eqP; rewrite -subr_eq0 -/v v0.
have Ee : e^T *m e = (norm2 a)%:M.
  rewrite /e tr_col_mx mul_row_col trmx0 mul0mx addr0 tr_scalar_mx -scalar_mxM.
  by rewrite -expr2 sqr_sqrtr ?norm2_ge0.
have Ea : a^T *m a = (norm2 a)%:M by rewrite norm2_mul.
have Eea : e^T *m a = a^T *m e by rewrite -(tr11 (e^T *m a)) trmx_mul trmxK.
have nv : norm2 v != 0 by apply: contra v0 => /eqP/norm2_eq0->.
have Ev : v^T *m v = 2%:R *: (v^T *m a).
  have E1 : v^T *m a = (norm2 a)%:M - a^T *m e by rewrite /v linearB /= mulmxBl Ea Eea.
  have E2 : v^T *m e = a^T *m e - (norm2 a)%:M by rewrite /v linearB /= mulmxBl Ee.
  by rewrite {2}/v mulmxBr E1 E2 opprB scaler_nat mulr2n.
have Eva : v^T *m a = (norm2 v / 2%:R)%:M.
  apply: (@scalerI _ _ (2%:R : F)); first by rewrite pnatr_eq0.
  by rewrite -Ev norm2_mul scale_scalar_mx mulrC divfK // pnatr_eq0.
pose c := 2%:R / norm2 v.
exists (1%:M - c *: (v *m v^T)).
  have -> : (1%:M - c *: (v *m v^T))^T = 1%:M - c *: (v *m v^T) by rewrite linearB /= tr_scalar_mx linearZ /= trmx_mul trmxK.
  set X := c *: (v *m v^T).
  have -> : (1%:M - X) *m (1%:M - X) = 1%:M - X + (X *m X - X).
    by rewrite mulmxBl mul1mx mulmxBr mulmx1 opprB.
  have -> : X *m X = X + X.
    rewrite /X -scalemxAl -scalemxAr mulmxA -(mulmxA v) norm2_mul mul_mx_scalar -scalemxAl !scalerA.
    by rewrite -scalerDl; congr (_ *: _); rewrite {2}/c mulrC mulrA divfK // mulr_natl mulr2n.
  by rewrite addrK subrK.
rewrite mulmxBl mul1mx -scalemxAl -mulmxA Eva mul_mx_scalar scalerA /c mulrA divfK //.
by rewrite divff ?pnatr_eq0 // scale1r /v opprB addrC subrK.
Qed.

Definition upper m n (R : 'M[F]_(m, n)) : Prop := forall (i : 'I_m) (j : 'I_n), (j < i)%N -> R i j = 0.
Lemma full_qr m n (M : 'M[F]_(m, n)) : exists (Q : 'M[F]_m) (R : 'M[F]_(m, n)), [/\ Q^T *m Q = 1%:M, M = Q *m R & upper R].
Proof.
elim: n m M => [|n IH] m M; first by exists 1%:M, M; rewrite trmx1 !mul1mx; split=> // i [].
case: m M => [|m] M; first by exists 1%:M, M; rewrite trmx1 !mul1mx; split=> // -[].
pose M' : 'M[F]_(1 + m, 1 + n) := M.
have [H HH Ha] := householder (lsubmx M').
have HH' : H *m H^T = 1%:M by apply: mulmx1C.
pose N := H *m M'; have [Q' [R' [HQ' EN Hu]]] := IH _ (drsubmx N).
pose Q : 'M[F]_(1 + m) := H^T *m block_mx 1%:M 0 0 Q'.
pose R : 'M[F]_(1 + m, 1 + n) := block_mx (ulsubmx N) (ursubmx N) 0 R'.
have HQ : Q^T *m Q = 1%:M.
  rewrite /Q trmx_mul trmxK mulmxA -(mulmxA _ H) HH' mulmx1 tr_block_mx mulmx_block.
  by rewrite !trmx0 trmx1 !mul0mx !mulmx0 mul1mx !addr0 add0r HQ' -scalar_mx_block.
have HdlN : dlsubmx N = 0.
  have EN' : N = row_mx (H *m lsubmx M') (H *m rsubmx M') by rewrite -mul_mx_row hsubmxK.
  by rewrite EN' Ha -[H *m rsubmx M']vsubmxK -block_mxEh block_mxKdl.
have EM : M' = Q *m R.
  rewrite /Q /R -mulmxA mulmx_block !mul1mx !mul0mx !addr0 !add0r mulmx0 -EN -HdlN submxK.
  by rewrite /N mulmxA HH mul1mx.
exists Q, R; split=> //.
suff H0 (i : 'I_(1 + m)) (j : 'I_(1 + n)) : (j < i)%N -> R i j = 0 by exact: H0.
rewrite /R; case: (split_ordP i) => i' ->; case: (split_ordP j) => j' -> /=.
- by rewrite !ord1 /=.
- by rewrite ord1.
- by rewrite block_mxEdl mxE.
- by rewrite block_mxEdr => Hlt; apply: Hu; rewrite ltn_add2l in Hlt.
Qed.
Lemma qr_exists m n (M : 'M[F]_(m, n)) : exists q r, is_qr M q r.
Proof.
have [Q [R [HQ EM Hu]]] := full_qr M.
pose w := widen_ord (geq_minl m n).
exists (\matrix_(i, k) Q i (w k)), (\matrix_(k, j) R (w k) j); split.
- apply/matrixP=> i j; rewrite EM !mxE (bigID (fun l : 'I_m => (l < minn m n)%N)) /=.
  rewrite [X in _ + X]big1 ?addr0; last first.
    move=> l; rewrite -leqNgt geq_min leqNgt ltn_ord /= => Hl.
    by rewrite Hu ?mulr0 //; apply: leq_trans Hl.
  by rewrite (big_ord_narrow (geq_minl m n)); apply: eq_bigr => l _; rewrite !mxE.
- apply/matrixP=> k l; move/matrixP: HQ => /(_ (w k) (w l)); rewrite !mxE => HQ.
  transitivity (\sum_i Q^T (w k) i * Q i (w l)).
    by apply: eq_bigr => i _; rewrite !mxE.
  by rewrite HQ; congr (nat_of_bool _)%:R; rewrite -!val_eqE.
- by move=> i j Hij; rewrite mxE Hu.
Qed.

(** ** The scaling *)
Lemma norm_col m n (A : 'M[F]_(m, n)) j : \sum_i A i j * A i j = norm2 (col j A).
Proof. by apply: eq_bigr => i _; rewrite mxE expr2. Qed.
Lemma scalesP m n (A : 'M[F]_(m, n)) S : scales A = Some S ->
  (forall j, norm2 (col j A) != 0) /\ forall j, S 0 j = 1 / Num.sqrt (norm2 (col j A)).
Proof.
rewrite /scales; case: forallP => // H [<-]; split=> j; first by rewrite -norm_col.
by rewrite mxE norm_col.
Qed.
Lemma scales_some m n (A : 'M[F]_(m, n)) : (forall j, col j A != 0) -> exists S, scales A = Some S.
Proof.
move=> H; rewrite /scales; case: forallP => [_|[]]; first by eexists.
by move=> j; rewrite norm_col; apply: contra (H j) => /eqP/norm2_eq0->.
Qed.
Lemma scales_none m n (A : 'M[F]_(m, n)) j : col j A = 0 -> scales A = None.
Proof. by move=> H; rewrite /scales; case: forallP => // /(_ j); rewrite norm_col H norm20 eqxx. Qed.
Lemma scale_gt0 m n (A : 'M[F]_(m, n)) S j : scales A = Some S -> 0 < S 0 j.
Proof.
move=> /scalesP[H ->]; rewrite div1r invr_gt0 sqrtr_gt0 lt0r.
by rewrite H norm2_ge0.
Qed.
Lemma diag_unit m n (A : 'M[F]_(m, n)) S : scales A = Some S -> diag_mx S \in unitmx.
Proof.
move=> HS; rewrite unitmxE det_diag unitfE; apply/prodf_neq0 => j _.
by rewrite (lt0r_neq0 (scale_gt0 _ HS)).
Qed.

(** ** The least-squares step *)
Lemma qr_pinv m k n (q : 'M[F]_(m, k)) (r : 'M[F]_(k, n)) : q^T *m q = 1%:M -> pinv r *m q^T = pinv (q *m r).
Proof.
move=> Hq; apply: penrose_unique (pinv_penrose _); move: (pinv r) (pinv_penrose r) => X [E1 E2 E3 E4].
have E : q *m r *m (X *m q^T) = q *m (r *m X) *m q^T by rewrite !mulmxA.
have E' : X *m q^T *m (q *m r) = X *m r by rewrite mulmxA -(mulmxA _ q^T) Hq mulmx1.
split.
- by rewrite -mulmxA E' -mulmxA (mulmxA r) E1.
- by rewrite E' mulmxA E2.
- by rewrite E trmx_mul trmxK trmx_mul E3 mulmxA.
- by rewrite E' E4.
Qed.
Lemma finish1E m n k (S : 'rV[F]_n) (q : 'M[F]_(m, k)) r B : finish1 S q r B = diag_mx S *m (pinv r *m (q^T *m B)).
Proof. by rewrite mul_diag_mx; apply/matrixP=> i j; rewrite !mxE ord1. Qed.
Lemma scaled_minimises m n (A : 'M[F]_(m, n)) (D : 'M[F]_n) (B : 'cV[F]_m) : D \in unitmx ->
  minimises (affine A (- B)) (D *m (pinv (A *m D) *m B)).
Proof.
move=> HD; apply/minimisesP; have := pinv_minimises (A *m D) (- B); rewrite opprK => /minimisesP.
rewrite /affine trmx_mul -!mulmxA => H; apply: (can_inj (mulKmx (_ : D^T \in unitmx))); first by rewrite unitmx_tr.
by rewrite mulmx0 -[RHS]H; congr (_ *m (_ *m (_ + _))); rewrite !mulmxA.
Qed.
End Proofs.
