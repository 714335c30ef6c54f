From Coq Require Import ZArith Lia Ring.
From mathcomp Require Import all_ssreflect all_algebra.
From Verif Require Import Base ModelPe SpecPe ProofPe ModelSolve SpecSolve ProofSolve ModelPinv SpecPinv ProofPinv
  ModelAffine SpecAffine ProofAffine SpecNewton ProofNewton ProofNewton2.
Set Implicit Arguments.
Unset Strict Implicit.
Unset Printing Implicit Defensive.
Import GRing.Theory Num.Theory Order.POrderTheory.
Local Open Scope ring_scope.

Section Line.
Variable F : realFieldType.
Add Ring Fring : (Frt F).
Ltac fring :=
  match goal with |- @eq _ ?a ?b => change (@eq F a b) end;
  repeat match goal with
  | |- context [@GRing.add _ ?a ?b] => change (@GRing.add _ a b) with (@fadd F a b)
  | |- context [@GRing.mul _ ?a ?b] => change (@GRing.mul _ a b) with (@fmul F a b)
  | |- context [@GRing.opp _ ?a] => change (@GRing.opp _ a) with (@fopp F a)
  end; ring.
Lemma prod_line (A1 Aj a B1 Bj b D1 Dj d t : F) :
  (A1 + t * Aj + a) + (B1 + t * Bj + b) * (D1 + t * Dj + d) =
  (A1 + a + (B1 + b) * (D1 + d)) + t * (Aj + (B1 + b) * Dj + Bj * (D1 + d)) + t * t * (Bj * Dj).
Proof. fring. Qed.
Variables (m n : nat) (A B D : 'M[F]_(m, n)) (a b d : 'cV[F]_m).
Lemma entry_line (M : 'M[F]_(m, n)) (c : 'cV[F]_m) (x : 'cV[F]_n) t j i :
  (M *m (x + t *: delta_mx j 0) + c) i 0 = (M *m x) i 0 + t * M i j + c i 0.
Proof. by rewrite mulmxDr -scalemxAr -colE !mxE. Qed.
Lemma prods_line (x : 'cV[F]_n) t j i : prods A B D a b d (x + t *: delta_mx j 0) i 0 =
  prods A B D a b d x i 0 + t * dprods A B D a b d x i j + t * t * (B i j * D i j).
Proof.
rewrite [LHS]mxE !entry_line prod_line [prods _ _ _ _ _ _ _ _ _]mxE [dprods _ _ _ _ _ _ _ _ _]mxE.
by rewrite ![(_ + _ : 'cV_m) i 0]mxE.
Qed.
Lemma dprods_dir (x h : 'cV[F]_n) i : (dprods A B D a b d x *m h) i 0 =
  (A *m h) i 0 + (B *m x + b) i 0 * (D *m h) i 0 + (B *m h) i 0 * (D *m x + d) i 0.
Proof.
rewrite mxE [(A *m h) i 0]mxE [(D *m h) i 0]mxE [(B *m h) i 0]mxE mulr_sumr mulr_suml -!big_split /=.
by apply: eq_bigr => j _; rewrite [dprods _ _ _ _ _ _ _ _ _]mxE !mulrDl -!mulrA [(D *m x + d) i 0 * h j 0]mulrC.
Qed.
Lemma full_of_kernel (M : 'M[F]_(m, n)) : (forall h : 'cV[F]_n, M *m h = 0 -> h = 0) -> row_free M^T.
Proof.
move=> H; apply: inj_row_free => v Hv; apply: trmx_inj; rewrite trmx0; apply: H.
by apply: trmx_inj; rewrite trmx_mul trmxK trmx0.
Qed.
End Line.
