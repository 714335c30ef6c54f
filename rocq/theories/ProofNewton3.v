From Coq Require Import ZArith Lia.
From mathcomp Require Import all_ssreflect all_algebra.
From Verif Require Import Base ModelPe SpecPe ProofPe ModelSolve SpecSolve ProofSolve ModelPinv SpecPinv ProofPinv ModelAffine SpecAffine ProofAffine SpecNewton ProofNewton ProofNewton2.
Set Implicit Arguments.
Unset Strict Implicit.
Unset Printing Implicit Defensive.
Import GRing.Theory Num.Theory Order.POrderTheory.
Local Open Scope ring_scope.

Section Conv.
Variables (F : realFieldType) (m n : nat).
Variables (r : 'cV[F]_n -> 'cV[F]_m) (jf : 'cV[F]_n -> 'M[F]_(m, n)) (xs : 'cV[F]_n) (rho L : F).
Notation mx := (@v_maxabs F _).
Hypotheses (HT : taylor r jf xs rho L) (Hz : r xs = 0) (HL : 0 <= L) (Hrho : 0 < rho).
Hypothesis Hk : forall x, within (x - xs) rho -> same_kernel (jf x) (jf xs).
Definition Bd : F := 2%:R * opn (pinv (jf xs)) * (1 + m%:R).
Definition cc : F := Bd * L + 1.
Definition Dd : F := opn (pinv (jf xs)) * ((m * n)%:R * (6%:R * L)) + cc.
Definition rad : F := Order.min rho (2%:R * Dd)^-1.

Lemma Bd_ge0 : 0 <= Bd.
Proof. by rewrite mulr_ge0 ?addr_ge0 ?ler0n ?ler01 // mulr_ge0 ?ler0n ?opn_ge0. Qed.
Lemma cc_ge1 : 1 <= cc.
Proof. by rewrite /cc ler_addr mulr_ge0 ?Bd_ge0. Qed.
Lemma cc_gt0 : 0 < cc.
Proof. exact: lt_le_trans ltr01 cc_ge1. Qed.
Lemma Dd_cc : cc <= Dd.
Proof. by rewrite /Dd ler_addr !mulr_ge0 ?opn_ge0 ?ler0n. Qed.
Lemma Dd_gt0 : 0 < Dd.
Proof. exact: lt_le_trans cc_gt0 Dd_cc. Qed.
Lemma rad_gt0 : 0 < rad.
Proof. by rewrite /rad Order.TotalTheory.lt_minr Hrho invr_gt0 mulr_gt0 ?ltr0n ?Dd_gt0. Qed.
Lemma rad_rho : rad <= rho.
Proof. by rewrite /rad Order.TotalTheory.le_minl lexx. Qed.
Lemma Dd_rad : Dd * rad <= 2%:R^-1.
Proof.
apply: (@le_trans _ _ (Dd * (2%:R * Dd)^-1)).
  by rewrite ler_wpmul2l ?(ltW Dd_gt0) // /rad Order.TotalTheory.le_minl lexx orbT.
by rewrite invfM mulrCA mulfV ?mulr1 // gt_eqF ?Dd_gt0.
Qed.
Lemma cc_rad : cc * rad <= 2%:R^-1.
Proof. by apply: le_trans Dd_rad; rewrite ler_wpmul2r ?Dd_cc // ltW ?rad_gt0. Qed.
Lemma op_rad : opn (pinv (jf xs)) * ((m * n)%:R * (6%:R * L * rad)) <= 2%:R^-1.
Proof.
apply: le_trans Dd_rad; rewrite !mulrA ler_wpmul2r ?(ltW rad_gt0) //.
by rewrite /Dd -!mulrA ler_addl ltW ?cc_gt0.
Qed.

Definition good (x : 'cV[F]_n) : Prop := within (x - xs) rad /\ exists u, x - xs = (jf xs)^T *m u.
Notation e x := (mx (x - xs)).
Lemma good_step x : good x -> [/\ good (nx r jf x), e (nx r jf x) <= cc * e x ^+ 2, e (nx r jf x) <= 2%:R^-1 * e x &
   forall v, mx (pinv (jf x) *m v) <= Bd * mx v].
Proof.
move=> [Wx Hu].
have [H1 H2 H3] := next_close HT Hz HL rad_gt0 rad_rho op_rad Hk Wx Hu.
have He : e x <= rad by apply/mx_le => //; apply: ltW rad_gt0.
have H4 : e (nx r jf x) <= cc * e x ^+ 2.
  apply: le_trans H1 _; rewrite -/Bd ler_wpmul2r ?exprn_ge0 ?mx_ge0 // /cc ler_addl ler01 //.
have H5 : e (nx r jf x) <= 2%:R^-1 * e x.
  apply: le_trans H4 _; rewrite expr2 mulrA ler_wpmul2r ?mx_ge0 //.
  by apply: le_trans cc_rad; rewrite ler_wpmul2l // ltW ?cc_gt0.
split=> //; split=> //.
apply/mx_le; first exact: ltW rad_gt0.
apply: le_trans H5 _; apply: le_trans He; rewrite ler_pimull ?mx_ge0 // invf_le1 ?ltr0n // ler1n //.
Qed.
Lemma good_iter x k : good x -> good (iter k (nx r jf) x).
Proof. by move=> Hx; elim: k => //= k IH; have [] := good_step IH. Qed.
Lemma quad x k : good x -> cc * e (iter k (nx r jf) x) <= (cc * e x) ^+ (2 ^ k).
Proof.
move=> Hx; elim: k => [|k IH]; first by rewrite expn0 expr1.
have [_ H _ _] := good_step (good_iter k Hx).
rewrite expnSr exprM; apply: (@le_trans _ _ ((cc * e (iter k (nx r jf) x)) ^+ 2)).
  by rewrite exprMn expr2 -mulrA ler_wpmul2l // ltW ?cc_gt0.
rewrite ler_expn2r // nnegrE ?exprn_ge0 // mulr_ge0 ?mx_ge0 // ltW ?cc_gt0 //.
Qed.
Lemma half_pow x k : good x -> cc * e (iter k (nx r jf) x) * 2%:R ^+ (2 ^ k) <= 1.
Proof.
move=> Hx; have He : e x <= rad by apply/mx_le; [apply: ltW rad_gt0|case: Hx].
have H : (cc * e x) ^+ (2 ^ k) <= 2%:R^-1 ^+ (2 ^ k).
  rewrite ler_expn2r ?nnegrE ?mulr_ge0 ?mx_ge0 ?invr_ge0 ?ler0n ?(ltW cc_gt0) //.
  by apply: le_trans cc_rad; rewrite ler_wpmul2l // ltW ?cc_gt0.
have := le_trans (quad k Hx) H; rewrite exprVn => H'.
by rewrite -ler_pdivl_mulr ?exprn_gt0 ?ltr0n // div1r.
Qed.
(** steps are comparable to errors *)
Lemma step_error x : good x -> mx (pinv (jf x) *m r x) <= 2%:R * e x /\ e x <= 2%:R * mx (pinv (jf x) *m r x).
Proof.
move=> Hx; have [_ _ H _] := good_step Hx.
have E : pinv (jf x) *m r x = (x - xs) - (nx r jf x - xs) by rewrite /nx opprB addrA subrK opprB addrC subrK.
have half : forall a : F, 2%:R^-1 * a + 2%:R^-1 * a = a.
  by move=> a; rewrite -mulrDl -mulr2n -[_ *+ 2]mulr_natl mulfV ?mul1r // pnatr_eq0.
split.
  rewrite E; apply: le_trans (mxD _ _) _; rewrite mxN mulr_natl mulr2n ler_add2l.
  apply: le_trans H _; rewrite ler_pimull ?mx_ge0 // invf_le1 ?ltr0n // ler1n //.
have : e x <= mx (pinv (jf x) *m r x) + 2%:R^-1 * e x.
  have {1}-> : x - xs = pinv (jf x) *m r x + (nx r jf x - xs) by rewrite E subrK.
  by apply: le_trans (mxD _ _) _; rewrite ler_add2l.
rewrite -ler_subl_addr -{1}[e x]half addrK => H'.
by rewrite -ler_pdivr_mull ?ltr0n.
Qed.
End Conv.
