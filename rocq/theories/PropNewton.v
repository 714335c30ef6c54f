(** C99: NLLS on residuals that are not affine, in exact arithmetic. *)
From Coq Require Import ZArith Lia.
From mathcomp Require Import all_ssreflect all_algebra.
From Verif Require Import Base ModelPe SpecPe ProofPe ModelSolve SpecSolve ProofSolve ModelPinv SpecPinv ProofPinv
  ModelAffine SpecAffine ProofAffine SpecNewton ProofNewton ProofNewton2 ProofNewton3 ProofNewton4.
Set Implicit Arguments.
Unset Strict Implicit.
Unset Printing Implicit Defensive.
Import GRing.Theory Num.Theory Order.POrderTheory.
Local Open Scope ring_scope.

(** Near a zero of the residual, with the Jacobian's kernel not depending on the point, NLLS
    started at a right angle to that kernel converges quadratically: after [k] iterations the error
    is [(c d)^(2^k) / c] if it was [d] at the start, at most [K + 1] iterations are made once
    [2^(2^K)] exceeds [2 / (c tol)], and the answer is then within a multiple of [tol]. *)
Theorem C99_converges : forall (F : realFieldType) (Ar : Type) m n
    (jac : (seq (value F Ar n) -> 'cV[F]_m) -> seq (value F Ar n) -> 'M[F]_(m, n))
    (res : seq (value F Ar n) -> 'cV[F]_m) (args : seq (value F Ar n)) J r jf consts s xs rho L,
  solves_with jac res args J r jf -> valid_method s ->
  ascending consts -> List.Forall (fun k => Peano.le 1 k /\ Peano.le k (length args)) consts ->
  taylor r jf xs rho L -> r xs = 0 -> 0 <= L -> 0 < rho ->
  (forall x, within (x - xs) rho -> same_kernel (jf x) (jf xs)) ->
  exists radius c C : F, [/\ 0 < radius, 0 < c, 0 < C &
    forall x0, within (x0 - xs) radius -> (exists u, x0 - xs = (jf xs)^T *m u) ->
    forall timer printOut cond tol maxIter fuel, 0 < tol -> Z.le maxIter (Z.of_nat fuel) -> Peano.le 1 fuel ->
    exists x k out, [/\ fst (vNLLS jac fuel (Unk x0) res args consts J cond None tol maxIter s timer printOut)
        = NReturns (NResult (Unk x) (Z.of_nat k) out),
      (forall d, within (x0 - xs) d -> within (x - xs) ((c * d) ^+ (2 ^ k) / c)),
      within (x - xs) ((c * 2%:R ^+ (2 ^ k))^-1) &
      forall K, tol < 1 -> 2%:R <= tol * c * 2%:R ^+ (2 ^ K) -> Z.lt (Z.of_nat K.+1) maxIter ->
        (k <= K.+1)%N /\ within (x - xs) (C * tol)]].
Proof.
move=> F Ar m n jac res args J r jf consts s xs rho L Hs Hm Ha Hb HT Hz HL Hrho Hk.
have Hc0 : 0 < cc jf xs L by apply: cc_gt0.
exists (rad jf xs rho L), (cc jf xs L), (2%:R * Bd jf xs + 4%:R * cc jf xs L); split=> //.
- exact: rad_gt0.
- by apply: ltr_paddl; [apply: mulr_ge0; [rewrite ler0n|apply: Bd_ge0]|apply: mulr_gt0; [rewrite ltr0n|]].
exact: (converges_at Hs Hm Ha Hb HT Hz HL Hrho Hk).
Qed.
Print Assumptions C99_converges.

Section Full.
Variables (F : realFieldType) (m n : nat) (r : 'cV[F]_n -> 'cV[F]_m) (jf : 'cV[F]_n -> 'M[F]_(m, n)) (xs : 'cV[F]_n).
Lemma full_range (w : 'cV[F]_n) : row_free (jf xs)^T -> exists u, w = (jf xs)^T *m u.
Proof.
move=> H; have [u Eu] := pinv_range_mem (jf xs) (jf xs *m w); exists u.
by rewrite -Eu mulmxA (pinv_left H) mul1mx.
Qed.
Lemma full_kernel x : row_free (jf xs)^T -> opn (pinv (jf xs)) * opn (jf x - jf xs) <= 2%:R^-1 -> same_kernel (jf x) (jf xs).
Proof.
move=> H Hs v; have E : pinv (jf xs) *m (jf xs *m v) = v by rewrite mulmxA (pinv_left H) mul1mx.
split=> Hv; last by rewrite -E Hv !mulmx0.
suff -> : v = 0 by rewrite mulmx0.
apply: mx0; apply/eqP; rewrite eq_le mx_ge0 andbT.
have H1 : v_maxabs v <= 2%:R^-1 * v_maxabs v.
  have {1}-> : v = - (pinv (jf xs) *m ((jf x - jf xs) *m v)) by rewrite mulmxBl Hv sub0r mulmxN opprK E.
  rewrite mxN; apply: le_trans (opnP _ _) _.
  apply: le_trans (ler_wpmul2l (opn_ge0 _) (opnP _ _)) _.
  by rewrite mulrA ler_wpmul2r ?mx_ge0.
move: H1; rewrite ler_pdivl_mull ?ltr0n // mulr_natl mulr2n => H1.
by rewrite -(ler_add2r (v_maxabs v)) add0r.
Qed.
End Full.

(** The same with independent columns at the solution, from any start near it. *)
Theorem C99_full_rank : forall (F : realFieldType) (Ar : Type) m n
    (jac : (seq (value F Ar n) -> 'cV[F]_m) -> seq (value F Ar n) -> 'M[F]_(m, n))
    (res : seq (value F Ar n) -> 'cV[F]_m) (args : seq (value F Ar n)) J r jf consts s xs rho L,
  solves_with jac res args J r jf -> valid_method s ->
  ascending consts -> List.Forall (fun k => Peano.le 1 k /\ Peano.le k (length args)) consts ->
  taylor r jf xs rho L -> r xs = 0 -> 0 <= L -> 0 < rho -> row_free (jf xs)^T ->
  exists radius c C : F, [/\ 0 < radius, 0 < c, 0 < C &
    forall x0, within (x0 - xs) radius ->
    forall timer printOut cond tol maxIter fuel, 0 < tol -> Z.le maxIter (Z.of_nat fuel) -> Peano.le 1 fuel ->
    exists x k out, [/\ fst (vNLLS jac fuel (Unk x0) res args consts J cond None tol maxIter s timer printOut)
        = NReturns (NResult (Unk x) (Z.of_nat k) out),
      (forall d, within (x0 - xs) d -> within (x - xs) ((c * d) ^+ (2 ^ k) / c)),
      within (x - xs) ((c * 2%:R ^+ (2 ^ k))^-1) &
      forall K, tol < 1 -> 2%:R <= tol * c * 2%:R ^+ (2 ^ K) -> Z.lt (Z.of_nat K.+1) maxIter ->
        (k <= K.+1)%N /\ within (x - xs) (C * tol)]].
Proof.
move=> F Ar m n jac res args J r jf consts s xs rho L Hs Hm Ha Hb HT Hz HL Hrho HF.
pose D := opn (pinv (jf xs)) * ((m * n)%:R * (6%:R * L)) + 1.
have HD : 0 < D by rewrite /D ltr_paddl ?ltr01 // !mulr_ge0 ?opn_ge0 ?ler0n.
pose rho' := Order.min rho (2%:R * D)^-1.
have Hr0 : 0 < rho' by rewrite /rho' Order.TotalTheory.lt_minr Hrho invr_gt0 mulr_gt0 ?ltr0n.
have Hr1 : rho' <= rho by rewrite /rho' Order.TotalTheory.le_minl lexx.
have Hr2 : D * rho' <= 2%:R^-1.
  apply: (@le_trans _ _ (D * (2%:R * D)^-1)).
    by rewrite ler_wpmul2l ?(ltW HD) // /rho' Order.TotalTheory.le_minl lexx orbT.
  by rewrite invfM mulrCA mulfV ?mulr1 // gt_eqF.
have HT' : taylor r jf xs rho' L.
  by move=> x y d Wx Wy; apply: HT => i; [apply: le_trans (Wx i) Hr1|apply: le_trans (Wy i) Hr1].
have Hk : forall x, within (x - xs) rho' -> same_kernel (jf x) (jf xs).
  move=> x Wx; apply: full_kernel => //; apply: le_trans Hr2.
  apply: le_trans (ler_wpmul2l (opn_ge0 _) (opn_le (fun i j => lip i j HT' Hr0 (lexx _) Wx))) _.
  by rewrite !mulrA ler_wpmul2r ?(ltW Hr0) // /D -!mulrA ler_addl ler01.
have [radius [c [C [R0 c0 C0 H]]]] := @C99_converges F Ar m n jac res args J r jf consts s xs rho' L Hs Hm Ha Hb HT' Hz HL Hr0 Hk.
exists radius, c, C; split=> // x0 Wx; apply: H => //.
exact: full_range.
Qed.
Print Assumptions C99_full_rank.

Lemma opn_within (F : realFieldType) m n (M : 'M[F]_(m, n)) (h : 'cV[F]_n) e : 0 <= e -> within h e -> within (M *m h) (opn M * e).
Proof.
move=> He Wd i; apply: le_trans (mx_entry _ i) _; apply: le_trans (opnP _ _) _.
by rewrite ler_wpmul2l ?opn_ge0 //; apply/mx_le.
Qed.

(** The hypothesis holds for residuals made of affine functions and products of two, such as that of
    the differential equation of the test suite, at every point and in every ball. *)
Theorem C99_products : forall (F : realFieldType) m n (A B D : 'M[F]_(m, n)) (a b d : 'cV[F]_m) xs rho,
  exists L, 0 <= L /\ taylor (prods A B D a b d) (dprods A B D a b d) xs rho L.
Proof.
move=> F m n A B D a b d xs rho; exists (opn B * opn D); split; first by rewrite mulr_ge0 ?opn_ge0.
move=> x y e _ _ Wd i; move: Wd; set h := y - x => Wd.
have -> : (prods A B D a b d y - prods A B D a b d x - dprods A B D a b d x *m h) i 0 = (B *m h) i 0 * (D *m h) i 0.
  have -> : y = x + h by rewrite /h addrC subrK.
  have EJ : (dprods A B D a b d x *m h) i 0 = (A *m h) i 0 + (B *m x + b) i 0 * (D *m h) i 0 + (B *m h) i 0 * (D *m x + d) i 0.
    rewrite mxE [(A *m h) i 0]mxE [(D *m h) i 0]mxE [(B *m h) i 0]mxE mulr_sumr mulr_suml -!big_split /=.
    by apply: eq_bigr => j _; rewrite [dprods _ _ _ _ _ _ _ _ _]mxE !mulrDl -!mulrA [(D *m x + d) i 0 * h j 0]mulrC.
  by rewrite mxE [(- _ : 'cV_m) i 0]mxE EJ [(_ - _ : 'cV_m) i 0]mxE [(- _ : 'cV_m) i 0]mxE ![(prods _ _ _ _ _ _ _) i 0]mxE !mulmxDr ![(_ + _ : 'cV_m) i 0]mxE; apply: prod_rem.
case: (posnP n) => Hn.
  have E0 : h = 0 by apply/matrixP => j; exfalso; have := ltn_ord j; rewrite [X in (_ < X)%N]Hn.
  by rewrite E0 mulmx0 mxE mul0r normr0 mulr_ge0 ?sqr_ge0 ?mulr_ge0 ?opn_ge0.
have He := within_ge0 Hn Wd.
rewrite normrM expr2 mulrACA ler_pmul ?normr_ge0 //; exact: opn_within.
Qed.
Print Assumptions C99_products.


(** NLLS started where the gradient of the sum of squares vanishes returns its start, after at
    most one iteration and whatever the size of the residual; from anywhere else the first
    iteration moves it. *)
Theorem C99_stationary : forall (F : realFieldType) (Ar : Type) m n
    (jac : (seq (value F Ar n) -> 'cV[F]_m) -> seq (value F Ar n) -> 'M[F]_(m, n))
    (res : seq (value F Ar n) -> 'cV[F]_m) (args : seq (value F Ar n)) J r jf consts s x0,
  solves_with jac res args J r jf -> valid_method s ->
  ascending consts -> List.Forall (fun k => Peano.le 1 k /\ Peano.le k (length args)) consts ->
  (stationary (jf x0) (r x0) ->
   forall timer printOut cond tol maxIter fuel, 0 <= tol -> Z.le maxIter (Z.of_nat fuel) -> Peano.le 1 fuel ->
   exists k out, (k <= 1)%N /\ fst (vNLLS jac fuel (Unk x0) res args consts J cond None tol maxIter s timer printOut)
        = NReturns (NResult (Unk x0) (Z.of_nat k) out)) /\
  (~ stationary (jf x0) (r x0) ->
   forall timer printOut cond tol fuel, tol < 1 -> ~ within (r x0) tol -> Peano.le 1 fuel ->
   exists x out, x <> x0 /\ fst (vNLLS jac fuel (Unk x0) res args consts J cond None tol 1 s timer printOut)
        = NReturns (NResult (Unk x) 1 out)).
Proof.
move=> F Ar m n jac res args J r jf consts s x0 Hs Hm Ha Hb; split.
- move=> Hst timer printOut cond tol maxIter fuel Ht Hf H1.
  have Hp : pinv (jf x0) *m r x0 = 0 by apply/pinv0; apply/stationaryP.
  have Hx : forall k, iter k (nx r jf) x0 = x0 by elim=> //= k ->; rewrite /nx Hp subr0.
  have [k [[_ Hn] E]] := @nlls_spec _ _ _ _ _ (@v_pinv_dot F m n) (@v_pinv_dot F m n) (@v_sub F Ar n) (@v_ones F Ar n)
    (@v_maxabs F m) (@v_maxabs F n) (@v_gt F) jac fuel (Unk x0) res args consts J cond tol maxIter s timer printOut _ (@v_subt F Ar n)
    (solve_valid _ _ _ Hm) (fun _ _ => erefl) Ha Hb Hf H1.
  exists k; eexists; split; last by rewrite /vNLLS E (iterate_nx Hs) Hx; reflexivity.
  rewrite leqNgt; apply/negP=> Hlt; apply: (Hn 1%N (ltP Hlt)); right; right.
  rewrite /last_step /= (upd_nx Hs) Hp /v_gt; apply/negbTE; rewrite -Order.TotalTheory.leNgt.
  by apply/mx_le => // i; rewrite mxE normr0.
move=> Hst timer printOut cond tol fuel Ht Hr H1.
have Hf : Z.le 1 (Z.of_nat fuel) by lia.
have [k [[Hk Hn] E]] := @nlls_spec _ _ _ _ _ (@v_pinv_dot F m n) (@v_pinv_dot F m n) (@v_sub F Ar n) (@v_ones F Ar n)
  (@v_maxabs F m) (@v_maxabs F n) (@v_gt F) jac fuel (Unk x0) res args consts J cond tol 1 s timer printOut _ (@v_subt F Ar n)
  (solve_valid _ _ _ Hm) (fun _ _ => erefl) Ha Hb Hf H1.
have Hn0 : (0 < n)%N.
  by case: posnP => // Hn0; exfalso; apply: Hst => j; exfalso; have := ltn_ord j; rewrite [X in (_ < X)%N]Hn0.
have Ek : k = 1%N.
  case: k Hk Hn E => [|[|k]] Hk Hn E //; exfalso.
    case: Hk => [Hk|[Hk|Hk]]; [|by move: Hk; cbn; lia|by move: Hk; rewrite /last_step /v_ones maxabs1 // /v_gt Ht].
    move: Hk => /=; rewrite (proj1 (Hs x0)) /v_gt => /negbT; rewrite -Order.TotalTheory.leNgt => Hk.
    by apply: Hr => i; apply: le_trans (mx_entry _ i) Hk.
  by apply: (Hn 1%N); [apply/ltP|right; left].
exists (nx r jf x0); eexists; split; last by rewrite /vNLLS E Ek (iterate_nx Hs); reflexivity.
move=> Hx; apply: Hst; apply/stationaryP/pinv0; move: Hx; rewrite /nx => Hx.
by rewrite -[LHS](subKr x0) Hx subrr.
Qed.
Print Assumptions C99_stationary.

Section Cubic.
Variable F : realFieldType.
Lemma mx1 (v : 'cV[F]_1) : v_maxabs v = `|v 0 0|.
Proof.
apply/eqP; rewrite eq_le mx_entry andbT; apply/mx_le; first exact: normr_ge0.
by move=> i; rewrite ord1.
Qed.
Lemma pinv1 (a : F) (A : 'M[F]_(1, 1)) (v : 'cV[F]_1) : A 0 0 = a -> a != 0 -> (pinv A *m v) 0 0 = v 0 0 / a.
Proof.
move=> Ha Hn.
have E : A *m (a^-1)%:M = 1%:M by apply/matrixP => i j; rewrite !ord1 mul_mx_scalar !mxE Ha mulVf.
have HF : row_free A^T by apply/row_freeP; exists (a^-1)%:M; apply/matrixP => i j; rewrite !ord1 mul_mx_scalar !mxE Ha mulVf.
have -> : pinv A = (a^-1)%:M by rewrite -[LHS]mulmx1 -E mulmxA (pinv_left HF) mul1mx.
by rewrite mul_scalar_mx mxE mulrC.
Qed.
Definition pt (b : bool) : 'cV[F]_1 := const_mx (b%:R).
Lemma cubic_pt b : cubic (pt b) 0 0 = if b then 1 else 2%:R.
Proof. by rewrite !mxE; case: b; rewrite /= ?expr1n ?expr0n /= ?mulr1 ?mulr0 ?subr0 ?add0r // subrK. Qed.
Lemma dcubic_pt b : dcubic (pt b) 0 0 = if b then 1 else - 2%:R.
Proof. by rewrite !mxE; case: b; rewrite /= ?expr1n ?expr0n /= ?mulr1 ?mulr0 ?add0r // -natrB. Qed.
Lemma step_pt b : (pinv (dcubic (pt b)) *m cubic (pt b)) 0 0 = if b then 1 else - 1.
Proof.
rewrite (pinv1 _ (dcubic_pt b)) ?cubic_pt; case: b; rewrite ?oppr_eq0 ?pnatr_eq0 ?oner_eq0 ?divr1 //.
by rewrite invrN mulrN divff ?pnatr_eq0.
Qed.
Lemma nx_pt b : nx (@cubic F) (@dcubic F) (pt b) = pt (~~ b).
Proof.
apply/matrixP => i j; rewrite !ord1 /nx mxE [(- _ : 'cV_1) 0 0]mxE step_pt !mxE.
by case: b => /=; rewrite ?subrr ?opprK ?add0r.
Qed.
Lemma iter_pt k : iter k (nx (@cubic F) (@dcubic F)) (pt false) = pt (odd k).
Proof. by elim: k => //= k ->; rewrite nx_pt. Qed.
End Cubic.

(** Away from the solution it need not converge: on x^3 - 2x + 2, which has such a solution, NLLS
    started at 0 goes back and forth between 0 and 1 until [maxIter]. *)
Theorem C99_far_start_refuted : forall (F : rcfType) (Ar : Type)
    (jac : (seq (value F Ar 1) -> 'cV[F]_1) -> seq (value F Ar 1) -> 'M[F]_(1, 1))
    (res : seq (value F Ar 1) -> 'cV[F]_1) (args : seq (value F Ar 1)) J consts s,
  solves_with jac res args J (@cubic F) (@dcubic F) -> valid_method s ->
  ascending consts -> List.Forall (fun k => Peano.le 1 k /\ Peano.le k (length args)) consts ->
  (exists xs, [/\ cubic xs = 0, row_free (dcubic xs)^T & forall rho, 0 < rho ->
     exists L, 0 <= L /\ taylor (@cubic F) (@dcubic F) xs rho L]) /\
  forall timer printOut cond tol maxIter fuel, tol < 1 -> Z.le 0 maxIter -> Z.le maxIter (Z.of_nat fuel) -> Peano.le 1 fuel ->
  exists out, fst (vNLLS jac fuel (Unk (const_mx 0)) res args consts J cond None tol maxIter s timer printOut)
    = NReturns (NResult (Unk (const_mx (if Z.even maxIter then 0 else 1))) maxIter out).
Proof.
move=> F Ar jac res args J consts s Hs Hm Ha Hb; split.
- pose p : {poly F} := 'X^3 - 2%:R *: 'X + 2%:R%:P.
  have Ep : forall x, p.[x] = x ^+ 3 - 2%:R * x + 2%:R.
    by move=> x; rewrite /p !(hornerE, hornerXn).
  have Hab : - 2%:R <= - 1 :> F by rewrite ler_opp2 ler1n.
  have H0 : p.[- 2%:R] <= 0 <= p.[- 1].
    by rewrite !Ep cubic_m2 cubic_m1 oppr_le0 !ler0n.
  have [x Hx Hr] := poly_ivt Hab H0.
  have Hx1 : 1 <= x ^+ 2.
    by rewrite -sqrrN exprn_ege1 // ler_oppr; case/andP: Hx.
  exists (const_mx x); split.
  + by apply/matrixP => i j; rewrite !mxE -Ep; apply/eqP.
  + have Hd : dcubic (const_mx x : 'cV_1) 0 0 != 0.
      rewrite !mxE gt_eqF // subr_gt0; apply: (@lt_le_trans _ _ 3%:R); first by rewrite ltr_nat.
      by rewrite ler_pmulr ?ltr0n.
    apply/row_freeP; exists ((dcubic (const_mx x : 'cV_1) 0 0)^-1)%:M; apply/matrixP => i j.
    by rewrite !ord1 mul_mx_scalar mxE [_^T _ _]mxE [RHS]mxE mulVf.
  move=> rho Hrho; exists (3%:R * (`|x| + rho)); split; first by rewrite mulr_ge0 ?ler0n // addr_ge0 ?normr_ge0 ?(ltW Hrho).
  move=> u v d Wu Wv Wd i; rewrite ord1.
  have Ev : v 0 0 = u 0 0 + (v - u) 0 0 by rewrite !mxE addrC subrK.
  have -> : (cubic v - cubic u - dcubic u *m (v - u)) 0 0 = (u 0 0 + (u 0 0 + v 0 0)) * (v - u) 0 0 ^+ 2.
    rewrite mxE [(- _ : 'cV_1) 0 0]mxE [(_ - _ : 'cV_1) 0 0]mxE [(- _ : 'cV_1) 0 0]mxE [(_ *m _ : 'cV_1) 0 0]mxE big_ord1.
    by rewrite /cubic /dcubic ![const_mx _ _ _]mxE Ev; apply: cubic_rem.
  have Hb1 : forall w : 'cV[F]_1, within (w - const_mx x) rho -> `|w 0 0| <= `|x| + rho.
    move=> w Ww; rewrite -[w 0 0](subrK x) addrC; apply: le_trans (ler_norm_add _ _) _.
    by rewrite ler_add2l; have := Ww 0; rewrite !mxE.
  rewrite normrM normrX ler_pmul ?exprn_ge0 ?normr_ge0 //.
    rewrite mulr_natl !mulrS mulr0n addr0; apply: le_trans (ler_norm_add _ _) _.
    apply: ler_add; first exact: Hb1.
    by apply: le_trans (ler_norm_add _ _) _; apply: ler_add; apply: Hb1.
  by rewrite ler_expn2r ?nnegrE ?normr_ge0 //; apply: le_trans (normr_ge0 _) (Wd 0).
move=> timer printOut cond tol maxIter fuel Ht HM Hf H1.
have [k [[Hk Hn] E]] := @nlls_spec _ _ _ _ _ (@v_pinv_dot F 1 1) (@v_pinv_dot F 1 1) (@v_sub F Ar 1) (@v_ones F Ar 1)
  (@v_maxabs F 1) (@v_maxabs F 1) (@v_gt F) jac fuel (Unk (pt F false)) res args consts J cond tol maxIter s timer printOut _ (@v_subt F Ar 1)
  (solve_valid _ _ _ Hm) (fun _ _ => erefl) Ha Hb Hf H1.
have Hlt : forall b, tol < v_maxabs (cubic (pt F b)).
  by move=> b; rewrite mx1 cubic_pt; apply: lt_le_trans Ht _; case: b; rewrite ?normr1 // normr_nat ler1n.
have Hst : forall b, tol < v_maxabs (pinv (dcubic (pt F b)) *m cubic (pt F b)).
  by move=> b; rewrite mx1 step_pt; case: b; rewrite ?normrN normr1.
have Ek : Z.of_nat k = maxIter.
  have [H|H] : Z.le (Z.of_nat k) maxIter \/ Z.lt maxIter (Z.of_nat k) by lia.
    suff : Z.le maxIter (Z.of_nat k) by lia.
    case: Hk => [Hk|[//|Hk]].
      by move: Hk; rewrite (iterate_nx Hs) iter_pt (proj1 (Hs _)) /v_gt Hlt.
    move: Hk; rewrite /last_step; case: (k) => [|k']; first by rewrite /v_ones maxabs1 // /v_gt Ht.
    by rewrite (iterate_nx Hs) iter_pt (upd_nx Hs) /v_gt Hst.
  exfalso; apply: (Hn (Z.to_nat maxIter)); first lia.
  by right; left; lia.
eexists; rewrite /vNLLS E (iterate_nx Hs) iter_pt Ek; congr (NReturns (NResult (Unk _) _ _)).
rewrite /pt -Ek.
have -> : Z.even (Z.of_nat k) = ~~ odd k.
  by elim: (k) => // j IH; rewrite Nat2Z.inj_succ Z.even_succ -Z.negb_even IH /=.
by case: odd.
Qed.
Print Assumptions C99_far_start_refuted.

(** x^2 = 4: the hypotheses of [C99_full_rank] hold at 2, so NLLS converges from nearby, whatever
    Jacobian with the right values it uses; and x^2 + 1 is stationary at 0. *)
Example C99_case (F : realFieldType) :
  let r := prods (0 : 'M[F]_1) 1%:M 1%:M (const_mx (- 4%:R)) 0 0 in
  let j := dprods (0 : 'M[F]_1) 1%:M 1%:M (const_mx (- 4%:R)) 0 0 in
  [/\ forall x, r x 0 0 = x 0 0 ^+ 2 - 4%:R, r (const_mx 2%:R) = 0, j (const_mx 2%:R) 0 0 = 4%:R,
      row_free (j (const_mx 2%:R))^T &
      exists L, 0 <= L /\ taylor r j (const_mx 2%:R) 1 L] /\
  (let r' := prods (0 : 'M[F]_1) 1%:M 1%:M (const_mx 1) 0 0 in
   let j' := dprods (0 : 'M[F]_1) 1%:M 1%:M (const_mx 1) 0 0 in
   stationary (j' 0) (r' 0) /\ r' 0 0 0 = 1).
Proof.
move=> r j.
have Hr : forall x, r x 0 0 = x 0 0 ^+ 2 - 4%:R.
  by move=> x; rewrite /r mxE mul0mx mul1mx add0r addr0 mxE expr2 addrC.
have Hj : j (const_mx 2%:R) 0 0 = 4%:R.
  by rewrite /j mxE mul1mx addr0 !mxE !eqxx add0r mulr1 mul1r -natrD.
split; last split.
- split=> //.
  + by apply/matrixP => a b; rewrite !ord1 Hr !mxE -natrX subrr.
  + apply/row_freeP; exists (4%:R^-1)%:M; apply/matrixP => a b.
    by rewrite !ord1 mul_mx_scalar mxE [_^T _ _]mxE Hj [RHS]mxE mulVf ?pnatr_eq0.
  exact: C99_products.
- move=> b; rewrite big_ord1 !ord1 [dprods _ _ _ _ _ _ _ _ _]mxE !mulmx0 !addr0 [(0 : 'M_1) _ _]mxE ?mxE.
  by rewrite ?mxE ?mul0r ?mulr0 ?addr0 ?mulr0.
- by rewrite mxE !mulmx0 add0r !mxE add0r mulr0 addr0.
Qed.
