(** Runs of NLLS near a zero of the residual, with the constants made explicit (C99). *)
From Coq Require Import ZArith Lia.
From mathcomp Require Import all_ssreflect all_algebra.
From Verif Require Import Base ModelPe SpecPe ProofPe ModelSolve SpecSolve ProofSolve ModelPinv SpecPinv ProofPinv
  ModelAffine SpecAffine ProofAffine SpecNewton ProofNewton ProofNewton2 ProofNewton3.
Set Implicit Arguments.
Unset Strict Implicit.
Unset Printing Implicit Defensive.
Import GRing.Theory Num.Theory Order.POrderTheory.
Local Open Scope ring_scope.

Section Runs.
Variables (F : realFieldType) (Ar : Type) (m n : nat).
Variables (jac : (seq (value F Ar n) -> 'cV[F]_m) -> seq (value F Ar n) -> 'M[F]_(m, n))
  (res : seq (value F Ar n) -> 'cV[F]_m) (args : seq (value F Ar n)) (J : option (seq (value F Ar n) -> 'M[F]_(m, n)))
  (r : 'cV[F]_n -> 'cV[F]_m) (jf : 'cV[F]_n -> 'M[F]_(m, n)).
Hypothesis Hs : solves_with jac res args J r jf.
Notation upd := (the_upd jac (@v_pinv_dot F m n) res J args).
Lemma upd_nx x : upd (Unk x) = pinv (jf x) *m r x.
Proof. by rewrite /the_upd /nlls_closure; have [-> ->] := Hs x. Qed.
Lemma iterate_nx k x : iterate (@v_subt F Ar n) upd k (Unk x) = Unk (iter k (nx r jf) x).
Proof. by elim: k => //= k ->; rewrite /= upd_nx. Qed.
End Runs.

Lemma converges_at (F : realFieldType) (Ar : Type) m n
    (jac : (seq (value F Ar n) -> 'cV[F]_m) -> seq (value F Ar n) -> 'M[F]_(m, n))
    (res : seq (value F Ar n) -> 'cV[F]_m) (args : seq (value F Ar n)) J r jf consts s xs rho L :
  solves_with jac res args J r jf -> valid_method s ->
  ascending consts -> List.Forall (fun k => Peano.le 1 k /\ Peano.le k (length args)) consts ->
  taylor r jf xs rho L -> r xs = 0 -> 0 <= L -> 0 < rho ->
  (forall x, within (x - xs) rho -> same_kernel (jf x) (jf xs)) ->
  forall x0, within (x0 - xs) (rad jf xs rho L) -> (exists u, x0 - xs = (jf xs)^T *m u) ->
    forall timer printOut cond tol maxIter fuel, 0 < tol -> Z.le maxIter (Z.of_nat fuel) -> Peano.le 1 fuel ->
    exists x k out, [/\ fst (vNLLS jac fuel (Unk x0) res args consts J cond None tol maxIter s timer printOut)
        = NReturns (NResult (Unk x) (Z.of_nat k) out),
      (forall d, within (x0 - xs) d -> within (x - xs) ((cc jf xs L * d) ^+ (2 ^ k) / cc jf xs L)),
      within (x - xs) ((cc jf xs L * 2%:R ^+ (2 ^ k))^-1) &
      forall K, tol < 1 -> 2%:R <= tol * cc jf xs L * 2%:R ^+ (2 ^ K) -> Z.lt (Z.of_nat K.+1) maxIter ->
        (k <= K.+1)%N /\ within (x - xs) ((2%:R * Bd jf xs + 4%:R * cc jf xs L) * tol)].
Proof.
move=> Hs Hm Ha Hb HT Hz HL Hrho Hk.
have Hc0 : 0 < cc jf xs L by apply: cc_gt0.
move=> x0 Wx Hu timer printOut cond tol maxIter fuel Ht Hf H1.
have Hg : good jf xs rho L x0 by split.
have [k [[Hst Hn] E]] := @nlls_spec _ _ _ _ _ (@v_pinv_dot F m n) (@v_pinv_dot F m n) (@v_sub F Ar n) (@v_ones F Ar n)
  (@v_maxabs F m) (@v_maxabs F n) (@v_gt F) jac fuel (Unk x0) res args consts J cond tol maxIter s timer printOut _ (@v_subt F Ar n)
  (solve_valid _ _ _ Hm) (fun _ _ => erefl) Ha Hb Hf H1.
exists (iter k (nx r jf) x0), k; eexists; split.
- by rewrite /vNLLS E (iterate_nx Hs); reflexivity.
- move=> d Hd i; have Hn0 : (0 < n)%N by case: (n) i => // -[].
  have Hd0 := within_ge0 Hn0 Hd.
  apply: le_trans (mx_entry _ i) _; rewrite ler_pdivl_mulr // mulrC.
  apply: le_trans (quad HT Hz HL Hrho Hk k Hg) _.
  rewrite ler_expn2r ?nnegrE ?mulr_ge0 ?mx_ge0 ?(ltW Hc0) //.
  by rewrite ler_wpmul2l ?(ltW Hc0) //; apply/mx_le.
- move=> i; apply: le_trans (mx_entry _ i) _.
  have H := half_pow HT Hz HL Hrho Hk k Hg.
  rewrite -[X in _ <= X]mul1r ler_pdivl_mulr ?mulr_gt0 ?exprn_gt0 ?ltr0n //.
  by rewrite mulrA [_ * cc _ _ _]mulrC.
move=> K Ht1 HK HM.
have HkK : (k <= K.+1)%N.
  rewrite leqNgt; apply/negP=> Hlt; apply: (Hn K.+1 (ltP Hlt)); right; right.
  rewrite /last_step (iterate_nx Hs) (upd_nx Hs) /v_gt; apply/negbTE; rewrite -Order.TotalTheory.leNgt.
  have HgK := good_iter HT Hz HL Hrho Hk K Hg.
  apply: le_trans (proj1 (step_error HT Hz HL Hrho Hk HgK)) _.
  have Hp : 0 < cc jf xs L * 2%:R ^+ (2 ^ K) by rewrite mulr_gt0 ?exprn_gt0 ?ltr0n.
  rewrite -(ler_pmul2r Hp) [X in _ <= X]mulrA; apply: le_trans HK.
  have := half_pow HT Hz HL Hrho Hk K Hg; rewrite -mulrA mulrCA => H.
  by rewrite -mulrA ler_pimulr ?ler0n.
split=> // i; apply: le_trans (mx_entry _ i) _.
have Hgk := good_iter HT Hz HL Hrho Hk k Hg.
rewrite mulrDl; case: Hst => [Hr|[HM'|Hd]]; last 2 first.
- by exfalso; move: HkK => /leP HkK; lia.
- case: k Hn E HkK Hgk Hd => [|k] Hn E HkK Hgk; rewrite /last_step.
    have Hn0 : (0 < n)%N by case: (n) i => // -[].
    by rewrite /v_ones maxabs1 // /v_gt Ht1.
  rewrite (iterate_nx Hs) (upd_nx Hs) /v_gt => /negbT; rewrite -Order.TotalTheory.leNgt => Hd.
  have Hgp := good_iter HT Hz HL Hrho Hk k Hg.
  have [_ H2 _ _] := good_step HT Hz HL Hrho Hk Hgp.
  have H3 := proj2 (step_error HT Hz HL Hrho Hk Hgp).
  apply: (@le_trans _ _ (4%:R * cc jf xs L * tol)); last first.
    by rewrite ler_addr; apply: mulr_ge0 (ltW Ht); apply: mulr_ge0; [rewrite ler0n|apply: Bd_ge0].
  apply: le_trans H2 _; rewrite [4%:R * _]mulrC -mulrA ler_wpmul2l ?(ltW Hc0) //.
  have H4 : v_maxabs (iter k (nx r jf) x0 - xs) <= 2%:R * tol by apply: le_trans H3 _; rewrite ler_wpmul2l ?ler0n.
  apply: (@le_trans _ _ ((2%:R * tol) ^+ 2)).
    by rewrite ler_expn2r ?nnegrE ?mx_ge0 ?mulr_ge0 ?ler0n ?(ltW Ht).
  rewrite exprMn -natrX ler_wpmul2l ?ler0n // expr2 ler_pimulr ?(ltW Ht) ?(ltW Ht1) //.
move: Hr; rewrite (iterate_nx Hs); have [-> _] := Hs (iter k (nx r jf) x0).
rewrite /v_gt => /negbT; rewrite -Order.TotalTheory.leNgt => Hr.
apply: (@le_trans _ _ (2%:R * Bd jf xs * tol)); last first.
  by rewrite ler_addl; apply: mulr_ge0 (ltW Ht); apply: mulr_ge0 (ltW Hc0); rewrite ler0n.
apply: le_trans (proj2 (step_error HT Hz HL Hrho Hk Hgk)) _; rewrite -mulrA ler_wpmul2l ?ler0n //.
have [_ _ _ H] := good_step HT Hz HL Hrho Hk Hgk.
by apply: le_trans (H _) _; rewrite ler_wpmul2l ?Bd_ge0.
Qed.
