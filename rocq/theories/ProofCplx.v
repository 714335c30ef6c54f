From Coq Require Import ZArith Lia.
From mathcomp Require Import all_ssreflect all_algebra.
From Verif Require Import Base ModelPe SpecPe ProofPe ModelSolve SpecSolve ProofSolve ModelCplx SpecCplx.
Set Implicit Arguments.
Unset Strict Implicit.
Unset Printing Implicit Defensive.
Import GRing.Theory Num.Theory.
Local Open Scope ring_scope.

Section Herm.
Variable F : numClosedFieldType.
Implicit Types (m n k : nat).

Lemma hermE m n (A : 'M[F]_(m, n)) i j : herm A i j = (A j i)^*.
Proof. by rewrite !mxE. Qed.
Lemma hermK m n (A : 'M[F]_(m, n)) : herm (herm A) = A.
Proof. by apply/matrixP=> i j; rewrite !hermE conjCK. Qed.
Lemma herm_mul m n k (A : 'M[F]_(m, n)) (B : 'M[F]_(n, k)) : herm (A *m B) = herm B *m herm A.
Proof. by rewrite /herm trmx_mul map_mxM. Qed.
Lemma herm0 m n : herm (0 : 'M[F]_(m, n)) = 0.
Proof. by apply/matrixP=> i j; rewrite hermE !mxE conjC0. Qed.
Lemma hermD m n (A B : 'M[F]_(m, n)) : herm (A + B) = herm A + herm B.
Proof. by rewrite /herm linearD map_mxD. Qed.
Lemma herm_inv n (A : 'M[F]_n) : herm (invmx A) = invmx (herm A).
Proof. by rewrite /herm trmx_inv map_invmx. Qed.
Lemma herm_inj m n : injective (@herm F m n).
Proof. by move=> A B E; rewrite -(hermK A) E hermK. Qed.
Lemma hermP n (A : 'M[F]_n) : (forall i j, A i j = (A j i)^*) <-> herm A = A.
Proof.
split=> [H|H i j]; first by apply/matrixP=> i j; rewrite hermE -H.
by rewrite -hermE H.
Qed.

Lemma cnorm2_mul n (v : 'cV[F]_n) : herm v *m v = (cnorm2 v)%:M.
Proof.
apply/matrixP=> i j; rewrite !ord1 !mxE eqxx mulr1n /cnorm2.
by apply: eq_bigr => k _; rewrite hermE normCKC.
Qed.
Lemma cnorm2E n (v : 'cV[F]_n) : cnorm2 v = (herm v *m v) 0 0.
Proof. by rewrite cnorm2_mul mxE eqxx mulr1n. Qed.
Lemma cnorm2_ge0 n (v : 'cV[F]_n) : 0 <= cnorm2 v.
Proof. by apply: sumr_ge0 => i _; rewrite exprn_ge0. Qed.
Lemma cnorm2_eq0 n (v : 'cV[F]_n) : cnorm2 v = 0 -> v = 0.
Proof.
move=> /eqP; rewrite psumr_eq0; last by move=> i _; rewrite exprn_ge0.
move=> /allP H; apply/colP=> i; rewrite mxE; apply/eqP.
by rewrite -normr_eq0 -sqrf_eq0; apply: H; rewrite mem_index_enum.
Qed.
Lemma cnorm20 n : cnorm2 (0 : 'cV[F]_n) = 0.
Proof. by rewrite /cnorm2 big1 // => i _; rewrite mxE normr0 expr0n. Qed.
Lemma cnorm2D n (u v : 'cV[F]_n) : herm u *m v = 0 -> cnorm2 (u + v) = cnorm2 u + cnorm2 v.
Proof.
move=> H; rewrite !cnorm2E hermD mulmxDl !mulmxDr H addr0.
have ->: herm v *m u = 0 by rewrite -[herm v *m u]hermK herm_mul hermK H herm0.
by rewrite add0r mxE.
Qed.

(** A matrix of full column rank has an invertible Gram matrix. *)
Lemma gram_unit m n (A : 'M[F]_(m, n)) : row_free (herm A) -> (herm A) *m A \in unitmx.
Proof.
move=> HA; rewrite -row_free_unit -kermx_eq0; apply/eqP.
apply/row_matrixP=> i; rewrite row0.
set v := row i _.
have Hv : v *m ((herm A) *m A) = 0.
  by apply/sub_kermxP; rewrite row_sub.
have H0 : cnorm2 ((herm (v *m (herm A)))) = 0.
  by rewrite cnorm2E hermK herm_mul hermK !mulmxA -(mulmxA v) Hv mul0mx mxE.
have := cnorm2_eq0 H0; rewrite -herm0 => /herm_inj H1.
by apply: (row_free_inj HA); rewrite H1 mul0mx.
Qed.
Lemma gram_unit_row m n (A : 'M[F]_(m, n)) : row_free A -> A *m (herm A) \in unitmx.
Proof. by move=> HA; have := @gram_unit n m (herm A); rewrite hermK; apply. Qed.

Lemma col_base_free m n (A : 'M[F]_(m, n)) : row_free (herm (col_base A)).
Proof. by rewrite /row_free /herm mxrank_map mxrank_tr; exact: col_base_full. Qed.

Lemma factor_penrose m r n (B : 'M[F]_(m, r)) (C : 'M[F]_(r, n)) :
  (herm B) *m B \in unitmx -> C *m (herm C) \in unitmx ->
  cpenrose (B *m C) ((herm C) *m invmx (C *m (herm C)) *m (invmx ((herm B) *m B) *m (herm B))).
Proof.
move=> UB UC.
have SB : (herm ((herm B) *m B)) = (herm B) *m B by rewrite herm_mul hermK.
have SC : (herm (C *m (herm C))) = C *m (herm C) by rewrite herm_mul hermK.
set X := _ *m (_ *m (herm B)).
have EL : B *m C *m X = B *m invmx ((herm B) *m B) *m (herm B).
  by rewrite /X mulmxA -(mulmxA B C) (mulmxA C) (mulmxV UC) mulmx1 mulmxA.
have ER : X *m (B *m C) = (herm C) *m invmx (C *m (herm C)) *m C.
  by rewrite /X (mulmxA _ B C) -(mulmxA _ _ B) -(mulmxA _ _ B) (mulVmx UB) mulmx1.
split.
- by rewrite EL mulmxA -(mulmxA _ (herm B) B) -(mulmxA B _ _) (mulVmx UB) mulmx1.
- rewrite ER /X mulmxA; congr (_ *m _).
  by rewrite mulmxA -(mulmxA _ C (herm C)) -(mulmxA (herm C) _ (C *m _)) (mulVmx UC) mulmx1.
- by apply/hermP; rewrite EL !herm_mul hermK herm_inv SB mulmxA.
- by apply/hermP; rewrite ER !herm_mul hermK herm_inv SC mulmxA.
Qed.
Lemma pinv_penrose m n (A : 'M[F]_(m, n)) : cpenrose A (hpinv A).
Proof.
have := factor_penrose (gram_unit (col_base_free A)) (gram_unit_row (row_base_free A)).
by rewrite mulmx_base.
Qed.

(** The Penrose conditions determine the matrix. *)
Lemma penrose_unique m n (A : 'M[F]_(m, n)) X Y : cpenrose A X -> cpenrose A Y -> X = Y.
Proof.
move=> [X1 X2 /hermP X3 /hermP X4] [Y1 Y2 /hermP Y3 /hermP Y4].
have EL : A *m X = A *m Y.
  have E : A *m X = A *m Y *m (A *m X) by rewrite mulmxA Y1.
  by rewrite -X3 {1}E herm_mul X3 Y3 mulmxA X1.
have ER : X *m A = Y *m A.
  have E : X *m A = X *m A *m (Y *m A) by rewrite mulmxA -(mulmxA X A Y) -(mulmxA X) Y1.
  by rewrite -X4 {1}E herm_mul X4 Y4 mulmxA -(mulmxA Y A X) -(mulmxA Y) X1.
by rewrite -X2 -mulmxA EL mulmxA ER Y2.
Qed.

(** Least squares by the Moore-Penrose inverse. *)
Lemma pinv_normal m n (A : 'M[F]_(m, n)) : (herm A) *m (A *m hpinv A) = (herm A).
Proof. by case: (pinv_penrose A) => E1 _ /hermP E3 _; rewrite -{1}E3 -herm_mul E1. Qed.
Lemma pinv_range m n (A : 'M[F]_(m, n)) : hpinv A = (herm A) *m ((herm (hpinv A)) *m hpinv A).
Proof. by case: (pinv_penrose A) => _ E2 _ /hermP E4; rewrite mulmxA -herm_mul E4 E2. Qed.

Lemma orth m n (A : 'M[F]_(m, n)) (r : 'cV[F]_m) (w : 'cV[F]_n) : (herm A) *m r = 0 -> (herm r) *m (A *m w) = 0.
Proof.
move=> H; rewrite mulmxA; have ->: (herm r) *m A = 0 by rewrite -[_ *m A]hermK herm_mul hermK H herm0.
by rewrite mul0mx.
Qed.
(** [x] cminimises exactly when the residual is orthogonal to the columns. *)
Lemma minimisesP m n (A : 'M[F]_(m, n)) b x : cminimises (caffine A b) x <-> (herm A) *m caffine A b x = 0.
Proof.
have key y : (herm A) *m caffine A b x = 0 ->
    cnorm2 (caffine A b y) = cnorm2 (caffine A b x) + cnorm2 (A *m (y - x)).
  move=> H; rewrite -cnorm2D; last exact: orth.
  by congr cnorm2; rewrite /caffine mulmxBr addrAC addrCA subrr addr0.
split; last by move=> H y; rewrite (key y H) ler_addl cnorm2_ge0.
move=> Hm; have Hx := pinv_normal A.
pose z : 'cV[F]_n := - (hpinv A *m b).
have Hz : (herm A) *m caffine A b z = 0.
  by rewrite /caffine mulmxDr mulmxN mulmxN mulmxA mulmxA -(mulmxA (herm A)) Hx addNr.
have {}key y : cnorm2 (caffine A b y) = cnorm2 (caffine A b z) + cnorm2 (A *m (y - z)).
  rewrite -cnorm2D; last exact: orth.
  by congr cnorm2; rewrite /caffine mulmxBr addrAC addrCA subrr addr0.
have : cnorm2 (A *m (x - z)) = 0.
  apply/eqP; rewrite Order.POrderTheory.eq_le cnorm2_ge0 andbT -(ger_addl (cnorm2 (caffine A b z))) -key; exact: Hm.
move=> /cnorm2_eq0; rewrite mulmxBr => /eqP; rewrite subr_eq0 => /eqP E.
by move: Hz; rewrite /caffine E.
Qed.

Lemma pinv_minimises m n (A : 'M[F]_(m, n)) b : cminimises (caffine A b) (hpinv A *m - b).
Proof.
apply/minimisesP; move: (hpinv A) (pinv_normal A) => X HX.
by rewrite /caffine mulmxDr !mulmxN !mulmxA -(mulmxA (herm A)) HX addNr.
Qed.
Lemma minimisers_differ m n (A : 'M[F]_(m, n)) b x y :
  cminimises (caffine A b) x -> cminimises (caffine A b) y -> A *m (y - x) = 0.
Proof.
move=> /minimisesP Hx /minimisesP Hy.
apply: cnorm2_eq0.
have H : (herm A) *m (A *m (y - x)) = 0.
  have ->: A *m (y - x) = caffine A b y - caffine A b x by rewrite /caffine mulmxBr opprD addrACA subrr addr0.
  by rewrite mulmxBr Hx Hy subrr.
by rewrite cnorm2E herm_mul -mulmxA H mulmx0 mxE.
Qed.
Lemma pinv_shortest m n (A : 'M[F]_(m, n)) b : cshortest (caffine A b) (hpinv A *m - b).
Proof.
move=> y Hy Hl; set x := hpinv A *m - b in Hl *.
have Hd := minimisers_differ (pinv_minimises A b) Hy; rewrite -/x in Hd.
have [w Ex] : exists w, x = (herm A) *m w.
  by exists ((herm (hpinv A)) *m hpinv A *m - b); rewrite mulmxA -pinv_range.
have Ho : (herm x) *m (y - x) = 0 by rewrite {1}Ex herm_mul hermK -mulmxA Hd mulmx0.
have E : cnorm2 y = cnorm2 x + cnorm2 (y - x) by rewrite -(cnorm2D Ho) addrC subrK.
have : cnorm2 (y - x) = 0.
  by apply/eqP; rewrite Order.POrderTheory.eq_le cnorm2_ge0 andbT -(ger_addl (cnorm2 x)) -E.
by move=> /cnorm2_eq0/eqP; rewrite subr_eq0 => /eqP.
Qed.
(** With independent columns the minimiser is unique and [A+ A = 1]. *)
Lemma pinv_left m n (A : 'M[F]_(m, n)) : row_free (herm A) -> hpinv A *m A = 1%:M.
Proof.
move=> H; have U := gram_unit H.
apply: (can_inj (mulKmx U)).
by rewrite mulmx1 mulmxA -(mulmxA (herm A) A) pinv_normal.
Qed.
End Herm.
