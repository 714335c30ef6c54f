(** C99, continued: Jacobians with dependent columns. *)
From Coq Require Import ZArith Lia.
From mathcomp Require Import all_ssreflect all_algebra.
From Verif Require Import Base ModelPe SpecPe ProofPe ModelSolve SpecSolve ProofSolve ModelPinv SpecPinv ProofPinv
  ModelAffine SpecAffine ProofAffine SpecNewton SpecIdle ProofNewton ProofNewton2 ProofNewton3 ProofNewton4 ProofNewton5.
Set Implicit Arguments.
Unset Strict Implicit.
Unset Printing Implicit Defensive.
Import GRing.Theory Num.Theory Order.POrderTheory.
Local Open Scope ring_scope.

(** If the Jacobian's kernel at the zero consists of directions that do nothing, NLLS converges from any
    start near it, to the zero [xs'] that differs from [xs] by such a direction. *)
Theorem C99_idle : forall (F : realFieldType) (Ar : Type) m n
    (jac : (seq (value F Ar n) -> 'cV[F]_m) -> seq (value F Ar n) -> 'M[F]_(m, n))
    (res : seq (value F Ar n) -> 'cV[F]_m) (args : seq (value F Ar n)) J r jf consts s xs rho L,
  solves_with jac res args J r jf -> valid_method s ->
  ascending consts -> List.Forall (fun k => Peano.le 1 k /\ Peano.le k (length args)) consts ->
  taylor r jf xs rho L -> r xs = 0 -> 0 <= L -> 0 < rho ->
  (forall k, jf xs *m k = 0 -> idle r jf k) ->
  exists radius c C : F, [/\ 0 < radius, 0 < c, 0 < C &
    forall x0, within (x0 - xs) radius ->
    exists xs' : 'cV[F]_n, [/\ r xs' = 0, jf xs *m (xs' - xs) = 0, idle r jf (xs' - xs) &
    forall timer printOut cond tol maxIter fuel, 0 < tol -> Z.le maxIter (Z.of_nat fuel) -> Peano.le 1 fuel ->
    exists x k out, [/\ fst (vNLLS jac fuel (Unk x0) res args consts J cond None tol maxIter s timer printOut)
        = NReturns (NResult (Unk x) (Z.of_nat k) out),
      (forall d, within (x0 - xs') d -> within (x - xs') ((c * d) ^+ (2 ^ k) / c)),
      within (x - xs') ((c * 2%:R ^+ (2 ^ k))^-1) &
      forall K, tol < 1 -> 2%:R <= tol * c * 2%:R ^+ (2 ^ K) -> Z.lt (Z.of_nat K.+1) maxIter ->
        (k <= K.+1)%N /\ within (x - xs') (C * tol)]]].
Proof.
move=> F Ar m n jac res args J r jf consts s xs rho L Hs Hm Ha Hb HT Hz HL Hrho Hid.
pose D := opn (pinv (jf xs)) * ((m * n)%:R * (6%:R * L)) + 1.
have HD : 0 < D by rewrite /D ltr_paddl ?ltr01 // !mulr_ge0 ?opn_ge0 ?ler0n.
pose rho' := Order.min rho (2%:R * D)^-1.
have Hr0 : 0 < rho' by rewrite /rho' Order.TotalTheory.lt_minr Hrho invr_gt0 mulr_gt0 ?ltr0n.
have Hr1 : rho' <= rho by rewrite /rho' Order.TotalTheory.le_minl lexx.
have Hr2 : D * rho' <= 2%:R^-1.
  apply: (@le_trans _ _ (D * (2%:R * D)^-1)).
    by rewrite ler_wpmul2l ?(ltW HD) // /rho' Order.TotalTheory.le_minl lexx orbT.
  by rewrite invfM mulrCA mulfV ?mulr1 // gt_eqF.
have HT' : taylor r jf xs rho' L.
  by move=> x y d Wx Wy; apply: HT => i; [apply: le_trans (Wx i) Hr1|apply: le_trans (Wy i) Hr1].
have Hk : forall x, within (x - xs) rho' -> same_kernel (jf x) (jf xs).
  move=> x Wx; apply: idle_kernel; first by move=> k /Hid /(_ x) [].
  apply: le_trans Hr2.
  apply: le_trans (ler_wpmul2l (opn_ge0 _) (opn_le (fun i j => lip i j HT' Hr0 (lexx _) Wx))) _.
  by rewrite !mulrA ler_wpmul2r ?(ltW Hr0) // /D -!mulrA ler_addl ler01.
pose P := opn (pinv (jf xs)) * opn (jf xs) + 1.
have HP : 0 < P by rewrite /P ltr_paddl ?ltr01 // mulr_ge0 ?opn_ge0.
have Hc0 : 0 < cc jf xs L by apply: cc_gt0.
have Hrad : 0 < rad jf xs rho' L by apply: rad_gt0.
exists (rad jf xs rho' L / P), (cc jf xs L), (2%:R * Bd jf xs + 4%:R * cc jf xs L); split=> //.
- by rewrite divr_gt0.
- by apply: ltr_paddl; [apply: mulr_ge0; [rewrite ler0n|apply: Bd_ge0]|apply: mulr_gt0; [rewrite ltr0n|]].
move=> x0 Wx; have [k [Ek [u Eu] Hsz]] := idle_split jf xs (x0 - xs).
have Hik := Hid k Ek; pose xs' := xs + k.
have E1 : xs' - xs = k by rewrite /xs' addrC addKr.
have Ej : jf xs' = jf xs by have [] := Hik xs.
have Er : r xs' = 0 by have [-> _ _] := Hik xs.
have Ex : x0 - xs' = x0 - xs - k by rewrite /xs' opprD addrA.
exists xs'; rewrite E1; split=> //.
have HTk : taylor r jf xs' rho' L by apply: idle_taylor.
have Hkk : forall x, within (x - xs') rho' -> same_kernel (jf x) (jf xs').
  move=> x Wx'; have [_ E2 _] := idle_opp Hik x; rewrite Ej -E2; apply: Hk.
  by rewrite addrAC -addrA -opprD -/xs'.
have Erad : rad jf xs' rho' L = rad jf xs rho' L by rewrite /rad /Dd /cc /Bd Ej.
have Ecc : cc jf xs' L = cc jf xs L by rewrite /cc /Bd Ej.
have EB : Bd jf xs' = Bd jf xs by rewrite /Bd Ej.
have W' : within (x0 - xs') (rad jf xs' rho' L).
  rewrite Erad Ex => i; apply: le_trans (mx_entry _ i) _; apply: le_trans Hsz _.
  have H1 : v_maxabs (x0 - xs) <= rad jf xs rho' L / P by apply/mx_le => //; rewrite divr_ge0 ?(ltW Hrad) ?(ltW HP).
  apply: le_trans (ler_wpmul2l _ H1) _; first by rewrite mulr_ge0 ?opn_ge0.
  rewrite mulrA ler_pdivr_mulr // mulrC ler_wpmul2l ?(ltW Hrad) // /P ler_addl ler01 //.
have Hu' : exists u, x0 - xs' = (jf xs')^T *m u by exists u; rewrite Ej Ex.
have := converges_at Hs Hm Ha Hb HTk Er HL Hr0 Hkk W' Hu'.
by rewrite Ecc EB.
Qed.
Print Assumptions C99_idle.

(** the residual x0 + x1 - 1 in two unknowns: the solver reaches the zero nearest to the start *)
Example C99_idle_case (F : realFieldType) : exists xs : 'cV[F]_2, exists r jf,
  [/\ r xs = 0, ~~ row_free (jf xs)^T, (forall k : 'cV[F]_2, jf xs *m k = 0 -> idle r jf k) & forall rho, exists L : F, 0 <= L /\ @taylor F 1 2 r jf xs rho L].
Proof.
pose A : 'M[F]_(1, 2) := const_mx 1.
exists (delta_mx 0 0), (fun x => A *m x - const_mx 1), (fun _ => A); split.
- apply/matrixP => i j; rewrite !ord1 !mxE !big_ord_recl big_ord0 !mxE /= !mulr1n mulr0n mulr1 mulr0 !addr0 subrr //.
- rewrite -row_leq_rank -ltnNge mxrank_tr; apply: leq_ltn_trans (rank_leq_row _) _ => //.
- by move=> k Hk x; split=> //; rewrite mulmxDr Hk addr0.
- move=> rho; exists 0; split=> // x y d _ _ _ i; rewrite mul0r.
  by rewrite mulmxBr [- (A *m x - const_mx 1)]opprB addrA subrK subrr mxE normr0.
Qed.
