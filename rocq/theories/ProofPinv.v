From mathcomp Require Import all_ssreflect all_algebra.
From Verif Require Import ModelPinv SpecPinv.
Set Implicit Arguments.
Unset Strict Implicit.
Unset Printing Implicit Defensive.
Import GRing.Theory Num.Theory.
Local Open Scope ring_scope.

Section Proofs.
Variable F : realFieldType.

Lemma norm2_mul n (v : 'cV[F]_n) : v^T *m v = (norm2 v)%:M.
Proof.
apply/matrixP=> i j; rewrite !ord1 !mxE eqxx mulr1n /norm2.
by apply: eq_bigr => k _; rewrite mxE expr2.
Qed.
Lemma norm2E n (v : 'cV[F]_n) : norm2 v = (v^T *m v) 0 0.
Proof. by rewrite norm2_mul mxE eqxx mulr1n. Qed.
Lemma norm2_ge0 n (v : 'cV[F]_n) : 0 <= norm2 v.
Proof. by apply: sumr_ge0 => i _; rewrite sqr_ge0. Qed.
Lemma norm2_eq0 n (v : 'cV[F]_n) : norm2 v = 0 -> v = 0.
Proof.
move=> /eqP; rewrite psumr_eq0; last by move=> i _; rewrite sqr_ge0.
move=> /allP H; apply/colP=> i; rewrite mxE; apply/eqP.
by rewrite -sqrf_eq0; apply: H; rewrite mem_index_enum.
Qed.
Lemma norm20 n : norm2 (0 : 'cV[F]_n) = 0.
Proof. by rewrite /norm2 big1 // => i _; rewrite mxE expr0n. Qed.
Lemma norm2D n (u v : 'cV[F]_n) : u^T *m v = 0 -> norm2 (u + v) = norm2 u + norm2 v.
Proof.
move=> H; rewrite !norm2E [(u + v)^T]linearD /= mulmxDl !mulmxDr H addr0.
have ->: v^T *m u = 0 by rewrite -[v^T *m u]trmxK trmx_mul trmxK H trmx0.
by rewrite add0r mxE.
Qed.
Lemma norm2N n (v : 'cV[F]_n) : norm2 (- v) = norm2 v.
Proof. by apply: eq_bigr => i _; rewrite mxE sqrrN. Qed.

(** A matrix of full column rank has an invertible Gram matrix. *)
Lemma gram_unit m n (A : 'M[F]_(m, n)) : row_free A^T -> A^T *m A \in unitmx.
Proof.
move=> HA; rewrite -row_free_unit -kermx_eq0; apply/eqP.
apply/row_matrixP=> i; rewrite row0.
set v := row i _.
have Hv : v *m (A^T *m A) = 0.
  by apply/sub_kermxP; rewrite row_sub.
have H0 : norm2 ((v *m A^T)^T) = 0.
  by rewrite norm2E trmxK trmx_mul trmxK !mulmxA -(mulmxA v) Hv mul0mx mxE.
have := norm2_eq0 H0; rewrite -trmx0 => /trmx_inj H1.
by apply: (row_free_inj HA); rewrite H1 mul0mx.
Qed.
Lemma gram_unit_row m n (A : 'M[F]_(m, n)) : row_free A -> A *m A^T \in unitmx.
Proof. by move=> HA; have := @gram_unit n m A^T; rewrite trmxK; apply. Qed.

Lemma col_base_free m n (A : 'M[F]_(m, n)) : row_free (col_base A)^T.
Proof. by rewrite /row_free mxrank_tr; exact: col_base_full. Qed.

Lemma factor_penrose m r n (B : 'M[F]_(m, r)) (C : 'M[F]_(r, n)) :
  B^T *m B \in unitmx -> C *m C^T \in unitmx ->
  penrose (B *m C) (C^T *m invmx (C *m C^T) *m (invmx (B^T *m B) *m B^T)).
Proof.
move=> UB UC.
have SB : (B^T *m B)^T = B^T *m B by rewrite trmx_mul trmxK.
have SC : (C *m C^T)^T = C *m C^T by rewrite trmx_mul trmxK.
set X := _ *m (_ *m B^T).
have EL : B *m C *m X = B *m invmx (B^T *m B) *m B^T.
  by rewrite /X mulmxA -(mulmxA B C) (mulmxA C) (mulmxV UC) mulmx1 mulmxA.
have ER : X *m (B *m C) = C^T *m invmx (C *m C^T) *m C.
  by rewrite /X (mulmxA _ B C) -(mulmxA _ _ B) -(mulmxA _ _ B) (mulVmx UB) mulmx1.
split.
- by rewrite EL mulmxA -(mulmxA _ B^T B) -(mulmxA B _ _) (mulVmx UB) mulmx1.
- rewrite ER /X mulmxA; congr (_ *m _).
  by rewrite mulmxA -(mulmxA _ C C^T) -(mulmxA C^T _ (C *m _)) (mulVmx UC) mulmx1.
- by rewrite EL !trmx_mul trmxK trmx_inv SB mulmxA.
- by rewrite ER !trmx_mul trmxK trmx_inv SC mulmxA.
Qed.
Lemma pinv_penrose m n (A : 'M[F]_(m, n)) : penrose A (pinv A).
Proof.
have := factor_penrose (gram_unit (col_base_free A)) (gram_unit_row (row_base_free A)).
by rewrite mulmx_base.
Qed.

(** The Penrose conditions determine the matrix. *)
Lemma penrose_unique m n (A : 'M[F]_(m, n)) X Y : penrose A X -> penrose A Y -> X = Y.
Proof.
move=> [X1 X2 X3 X4] [Y1 Y2 Y3 Y4].
have EL : A *m X = A *m Y.
  have E : A *m X = A *m Y *m (A *m X) by rewrite mulmxA Y1.
  by rewrite -X3 {1}E trmx_mul X3 Y3 mulmxA X1.
have ER : X *m A = Y *m A.
  have E : X *m A = X *m A *m (Y *m A) by rewrite mulmxA -(mulmxA X A Y) -(mulmxA X) Y1.
  by rewrite -X4 {1}E trmx_mul X4 Y4 mulmxA -(mulmxA Y A X) -(mulmxA Y) X1.
by rewrite -X2 -mulmxA EL mulmxA ER Y2.
Qed.

(** Least squares by the Moore-Penrose inverse. *)
Lemma pinv_normal m n (A : 'M[F]_(m, n)) : A^T *m (A *m pinv A) = A^T.
Proof. by case: (pinv_penrose A) => E1 _ E3 _; rewrite -{1}E3 -trmx_mul E1. Qed.
Lemma pinv_range m n (A : 'M[F]_(m, n)) : pinv A = A^T *m ((pinv A)^T *m pinv A).
Proof. by case: (pinv_penrose A) => _ E2 _ E4; rewrite mulmxA -trmx_mul E4 E2. Qed.

Lemma orth m n (A : 'M[F]_(m, n)) (r : 'cV[F]_m) (w : 'cV[F]_n) : A^T *m r = 0 -> r^T *m (A *m w) = 0.
Proof.
move=> H; rewrite mulmxA; have ->: r^T *m A = 0 by rewrite -[_ *m A]trmxK trmx_mul trmxK H trmx0.
by rewrite mul0mx.
Qed.
(** [x] minimises exactly when the residual is orthogonal to the columns. *)
Lemma minimisesP m n (A : 'M[F]_(m, n)) b x : minimises (affine A b) x <-> A^T *m affine A b x = 0.
Proof.
have key y : A^T *m affine A b x = 0 ->
    norm2 (affine A b y) = norm2 (affine A b x) + norm2 (A *m (y - x)).
  move=> H; rewrite -norm2D; last exact: orth.
  by congr norm2; rewrite /affine mulmxBr addrAC addrCA subrr addr0.
split; last by move=> H y; rewrite (key y H) ler_addl norm2_ge0.
move=> Hm; have Hx := pinv_normal A.
pose z : 'cV[F]_n := - (pinv A *m b).
have Hz : A^T *m affine A b z = 0.
  by rewrite /affine mulmxDr mulmxN mulmxN mulmxA mulmxA -(mulmxA A^T) Hx addNr.
have {}key y : norm2 (affine A b y) = norm2 (affine A b z) + norm2 (A *m (y - z)).
  rewrite -norm2D; last exact: orth.
  by congr norm2; rewrite /affine mulmxBr addrAC addrCA subrr addr0.
have : norm2 (A *m (x - z)) = 0.
  apply/eqP; rewrite Order.POrderTheory.eq_le norm2_ge0 andbT -(ger_addl (norm2 (affine A b z))) -key; exact: Hm.
move=> /norm2_eq0; rewrite mulmxBr => /eqP; rewrite subr_eq0 => /eqP E.
by move: Hz; rewrite /affine E.
Qed.

Lemma pinv_minimises m n (A : 'M[F]_(m, n)) b : minimises (affine A b) (pinv A *m - b).
Proof.
apply/minimisesP; move: (pinv A) (pinv_normal A) => X HX.
by rewrite /affine mulmxDr !mulmxN !mulmxA -(mulmxA A^T) HX addNr.
Qed.
Lemma minimisers_differ m n (A : 'M[F]_(m, n)) b x y :
  minimises (affine A b) x -> minimises (affine A b) y -> A *m (y - x) = 0.
Proof.
move=> /minimisesP Hx /minimisesP Hy.
apply: norm2_eq0.
have H : A^T *m (A *m (y - x)) = 0.
  have ->: A *m (y - x) = affine A b y - affine A b x by rewrite /affine mulmxBr opprD addrACA subrr addr0.
  by rewrite mulmxBr Hx Hy subrr.
by rewrite norm2E trmx_mul -mulmxA H mulmx0 mxE.
Qed.
Lemma pinv_shortest m n (A : 'M[F]_(m, n)) b : shortest (affine A b) (pinv A *m - b).
Proof.
move=> y Hy Hl; set x := pinv A *m - b in Hl *.
have Hd := minimisers_differ (pinv_minimises A b) Hy; rewrite -/x in Hd.
have [w Ex] : exists w, x = A^T *m w.
  by exists ((pinv A)^T *m pinv A *m - b); rewrite mulmxA -pinv_range.
have Ho : x^T *m (y - x) = 0 by rewrite {1}Ex trmx_mul trmxK -mulmxA Hd mulmx0.
have E : norm2 y = norm2 x + norm2 (y - x) by rewrite -(norm2D Ho) addrC subrK.
have : norm2 (y - x) = 0.
  by apply/eqP; rewrite Order.POrderTheory.eq_le norm2_ge0 andbT -(ger_addl (norm2 x)) -E.
by move=> /norm2_eq0/eqP; rewrite subr_eq0 => /eqP.
Qed.
(** With independent columns the minimiser is unique and [A+ A = 1]. *)
Lemma pinv_left m n (A : 'M[F]_(m, n)) : row_free A^T -> pinv A *m A = 1%:M.
Proof.
move=> H; have U := gram_unit H.
apply: (can_inj (mulKmx U)).
by rewrite mulmx1 mulmxA -(mulmxA A^T A) pinv_normal.
Qed.
End Proofs.
