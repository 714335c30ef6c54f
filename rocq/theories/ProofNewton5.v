(** Directions in the unknowns that do nothing (C99). *)
From Coq Require Import ZArith Lia.
From mathcomp Require Import all_ssreflect all_algebra.
From Verif Require Import Base ModelPe SpecPe ProofPe ModelSolve SpecSolve ProofSolve ModelPinv SpecPinv ProofPinv
  ModelAffine SpecAffine ProofAffine SpecNewton SpecIdle ProofNewton ProofNewton2 ProofNewton3 ProofNewton4.
Set Implicit Arguments.
Unset Strict Implicit.
Unset Printing Implicit Defensive.
Import GRing.Theory Num.Theory Order.POrderTheory.
Local Open Scope ring_scope.

Section Idle.
Variables (F : realFieldType) (m n : nat) (r : 'cV[F]_n -> 'cV[F]_m) (jf : 'cV[F]_n -> 'M[F]_(m, n)) (xs : 'cV[F]_n).
Notation mx := (@v_maxabs F _).
Lemma idle_opp (k : 'cV[F]_n) : idle r jf k -> idle r jf (- k).
Proof.
move=> H x; have [H1 H2 _] := H (x - k); have [_ _ H3] := H x.
by rewrite subrK in H1 H2; rewrite -H1 -H2 mulmxN H3 oppr0.
Qed.

Lemma idle_kernel (x : 'cV[F]_n) : (forall k : 'cV[F]_n, jf xs *m k = 0 -> jf x *m k = 0) ->
  opn (pinv (jf xs)) * opn (jf x - jf xs) <= 2%:R^-1 -> same_kernel (jf x) (jf xs).
Proof.
move=> H Hs v; split=> Hv; last exact: H.
have [w Ew] := pinv_range_mem (jf xs) (jf xs *m v).
have HG := kernel_proj w (fun u : 'cV_n => iff_refl (jf xs *m u = 0)).
have [E1 _ _ _] := pinv_penrose (jf xs).
move: Hs Ew HG E1; move: (pinv (jf xs)) => G Hs Ew HG E1; rewrite -Ew in HG.
set v0 := G *m (jf xs *m v) in Ew HG.
have E0 : jf xs *m v0 = jf xs *m v by rewrite /v0 !mulmxA E1.
have Hx0 : jf x *m v0 = 0.
  have : jf x *m (v - v0) = 0 by apply: H; rewrite mulmxBr E0 subrr.
  by rewrite mulmxBr Hv sub0r => /eqP; rewrite oppr_eq0 => /eqP.
rewrite -E0; suff -> : v0 = 0 by rewrite mulmx0.
apply: mx0; apply/eqP; rewrite eq_le mx_ge0 andbT.
have H1 : mx v0 <= 2%:R^-1 * mx v0.
  have {1}-> : v0 = - (G *m ((jf x - jf xs) *m v0)) by rewrite mulmxBl Hx0 sub0r mulmxN opprK HG.
  rewrite mxN; apply: le_trans (opnP _ _) _.
  apply: le_trans (ler_wpmul2l (opn_ge0 _) (opnP _ _)) _.
  by rewrite mulrA ler_wpmul2r ?mx_ge0.
move: H1; rewrite ler_pdivl_mull ?ltr0n // mulr_natl mulr2n => H1.
by rewrite -(ler_add2r (mx v0)) add0r.
Qed.

Lemma idle_taylor rho L (k : 'cV[F]_n) : idle r jf k -> taylor r jf xs rho L -> taylor r jf (xs + k) rho L.
Proof.
move=> /idle_opp Hk HT x y d Wx Wy Wd.
have [Ex1 Ex2 _] := Hk x; have [Ey1 _ _] := Hk y.
have sh z : z - k - xs = z - (xs + k) by rewrite opprD addrA addrAC.
have := HT (x - k) (y - k) d; rewrite !sh Ex1 Ex2 Ey1.
have -> : y - k - (x - k) = y - x by rewrite opprB addrA subrK.
exact.
Qed.
(** the part of [h] that matters, and the rest *)
Lemma idle_split (h : 'cV[F]_n) : exists k : 'cV[F]_n, [/\ jf xs *m k = 0, exists u, h - k = (jf xs)^T *m u &
  mx (h - k) <= opn (pinv (jf xs)) * opn (jf xs) * mx h].
Proof.
have Eh (y : 'cV[F]_n) : h - (h - y) = y by rewrite opprB addrC subrK.
exists (h - pinv (jf xs) *m (jf xs *m h)); rewrite Eh.
have [E1 _ _ _] := pinv_penrose (jf xs); have [w Ew] := pinv_range_mem (jf xs) (jf xs *m h).
move: E1 Ew; move: (pinv (jf xs)) => G E1 Ew; split.
- by rewrite mulmxBr !mulmxA E1 subrr.
- by exists w.
- apply: le_trans (opnP _ _) _; rewrite -mulrA; apply: ler_wpmul2l; [exact: opn_ge0|exact: opnP].
Qed.
End Idle.

Lemma idle_prods (F : realFieldType) m n (A B D : 'M[F]_(m, n)) (a b d : 'cV[F]_m) (k : 'cV[F]_n) :
  A *m k = 0 -> B *m k = 0 -> D *m k = 0 -> idle (prods A B D a b d) (dprods A B D a b d) k.
Proof.
move=> HA HB HD x; split.
- by apply/matrixP => i j; rewrite [LHS]mxE [RHS]mxE !mulmxDr HA HB HD !addr0.
- by apply/matrixP => i j; rewrite [LHS]mxE [RHS]mxE !mulmxDr HB HD !addr0.
- apply/matrixP => i j; rewrite ord1 [RHS]mxE.
  have -> : (dprods A B D a b d x *m k) i 0 = (A *m k) i 0 + (B *m x + b) i 0 * (D *m k) i 0 + (B *m k) i 0 * (D *m x + d) i 0.
    rewrite mxE [(A *m k) i 0]mxE [(D *m k) i 0]mxE [(B *m k) i 0]mxE mulr_sumr mulr_suml -!big_split /=.
    by apply: eq_bigr => l _; rewrite [dprods _ _ _ _ _ _ _ _ _]mxE !mulrDl -!mulrA [(D *m x + d) i 0 * k l 0]mulrC.
  by rewrite HA HB HD ![(0 : 'cV_m) _ _]mxE mulr0 mul0r !addr0.
Qed.
