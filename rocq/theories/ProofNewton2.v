From Coq Require Import ZArith Lia Ring.
From mathcomp Require Import all_ssreflect all_algebra.
From Verif Require Import Base ModelPe SpecPe ProofPe ModelSolve SpecSolve ProofSolve ModelPinv SpecPinv ProofPinv ModelAffine SpecAffine ProofAffine SpecNewton ProofNewton.
Set Implicit Arguments.
Unset Strict Implicit.
Unset Printing Implicit Defensive.
Import GRing.Theory Num.Theory Order.POrderTheory.
Local Open Scope ring_scope.

Section Newton.
Variables (F : realFieldType) (m n : nat).
Definition f0 : F := 0.
Definition f1 : F := 1.
Definition fadd (x y : F) : F := x + y.
Definition fmul (x y : F) : F := x * y.
Definition fopp (x : F) : F := - x.
Definition fsub (x y : F) : F := fadd x (fopp y).
Lemma Frt : @ring_theory F f0 f1 fadd fmul fsub fopp eq.
Proof.
constructor; [exact: add0r|exact: addrC|exact: addrA|exact: mul1r|exact: mulrC|exact: mulrA|exact: mulrDl|by []|exact: subrr].
Qed.
Add Ring Fring : Frt.
Ltac fring :=
  rewrite ?expr2 ?exprS ?expr0 ?mulr_natl ?mulrSr ?mulr0n;
  match goal with |- @eq _ ?a ?b => change (@eq F a b) end;
  repeat match goal with
  | |- context [@GRing.add _ ?a ?b] => change (@GRing.add _ a b) with (fadd a b)
  | |- context [@GRing.mul _ ?a ?b] => change (@GRing.mul _ a b) with (fmul a b)
  | |- context [@GRing.opp _ ?a] => change (@GRing.opp _ a) with (fopp a)
  end;
  repeat match goal with
  | |- context [@GRing.zero ?z] => change (@GRing.zero z) with f0
  | |- context [@GRing.one ?z] => change (@GRing.one z) with f1
  end; ring.
Variables (r : 'cV[F]_n -> 'cV[F]_m) (jf : 'cV[F]_n -> 'M[F]_(m, n)) (xs : 'cV[F]_n) (L : F).
Notation mx := (@v_maxabs F _).
Notation G := (pinv (jf xs)).
Definition nx (x : 'cV[F]_n) : 'cV[F]_n := x - pinv (jf x) *m r x.

Lemma lip rho x d i j : taylor r jf xs rho L -> 0 < d -> d <= rho -> within (x - xs) d ->
  `|(jf x - jf xs) i j| <= 6%:R * L * d.
Proof.
move=> HT Hd Hdr Hx; pose h : 'cV[F]_n := d *: delta_mx j 0.
have Hh : within h d.
  move=> k; rewrite !mxE andbT; case: eqP => _; first by rewrite mulr1 gtr0_norm.
  by rewrite mulr0 normr0 ltW.
have Wx : within (x - xs) rho by move=> k; apply: le_trans (Hx k) Hdr.
have W0 : within (xs - xs) rho.
  by move=> k; rewrite subrr mxE normr0 (le_trans _ Hdr) // ltW.
have Wh : within (xs + h - xs) rho.
  by move=> k; rewrite addrC addrA addNr add0r; apply: le_trans (Hh k) Hdr.
have Eh : xs + h - xs = h by rewrite addrC addrA addNr add0r.
have Wd : within (xs - x) d.
  by move=> k; rewrite -opprB mxE normrN; apply: Hx.
have Whd : within (xs + h - x) (2%:R * d).
  move=> k; rewrite addrAC [(_ + h) k 0]mxE mulr_natl mulr2n (le_trans (ler_norm_add _ _)) //.
  by apply: ler_add; [apply: Wd|apply: Hh].
have Whh : within (xs + h - xs) d by rewrite Eh.
have T1 := HT xs (xs + h) d W0 Wh Whh i.
have T2 := HT x (xs + h) _ Wx Wh Whd i.
have T3 := HT x xs d Wx W0 Wd i.
rewrite Eh in T1.
set t1 := r (xs + h) - r xs - jf xs *m h in T1.
set t2 := r (xs + h) - r x - jf x *m (xs + h - x) in T2.
set t3 := r xs - r x - jf x *m (xs - x) in T3.
have E : (jf x - jf xs) *m h = t1 - t2 + t3.
  have -> : t2 = r (xs + h) - r x - jf x *m (xs - x) - jf x *m h.
    by rewrite /t2 [xs + h - x]addrAC mulmxDr opprD addrA.
  rewrite /t1 /t3 mulmxBl.
  move: (r (xs + h)) (r xs) (r x) (jf x *m h) (jf xs *m h) (jf x *m (xs - x)) => a b c e f g.
  apply/colP=> k; rewrite !mxE.
  move: (a k 0) (b k 0) (c k 0) (e k 0) (f k 0) (g k 0) => {}a {}b {}c {}e {}f {}g.
  fring.
have H6 : `|((jf x - jf xs) *m h) i 0| <= 6%:R * L * d ^+ 2.
  rewrite E [(t1 - t2 + t3) i 0]mxE [(t1 - t2) i 0]mxE [(- t2) i 0]mxE.
  have -> : 6%:R * L * d ^+ 2 = L * d ^+ 2 + L * (2%:R * d) ^+ 2 + L * d ^+ 2 by fring.
  by rewrite (le_trans (ler_norm_add _ _)) // ler_add // (le_trans (ler_norm_add _ _)) // normrN ler_add.
have Ehi : ((jf x - jf xs) *m h) i 0 = (jf x - jf xs) i j * d.
  by rewrite /h -scalemxAr -colE !mxE mulrC.
move: H6; rewrite Ehi normrM (gtr0_norm Hd) expr2 mulrA ler_pmul2r //.
Qed.

Lemma pinv_bound x v : same_kernel (jf x) (jf xs) -> opn G * opn (jf x - jf xs) <= 2%:R^-1 ->
  mx (pinv (jf x) *m v) <= 2%:R * opn G * (1 + m%:R) * mx v.
Proof.
move=> Hk Hs; set h := pinv (jf x) *m v.
have Eh : G *m (jf xs *m h) = h.
  have [w Ew] := pinv_range_mem (jf x) v; rewrite -/h in Ew.
  have Hk' : same_kernel (jf xs) (jf x) by move=> u; split=> /Hk.
  have [u Eu] := same_kernel_range w Hk'; rewrite Ew Eu.
  by apply: kernel_proj.
have H1 : mx h <= opn G * mx (jf x *m h) + 2%:R^-1 * mx h.
  have {1}-> : mx h = mx (G *m (jf xs *m h)) by rewrite Eh.
  apply: le_trans (opnP _ _) _.
  have -> : jf xs *m h = jf x *m h - (jf x - jf xs) *m h by rewrite mulmxBl opprB addrC subrK.
  apply: le_trans (ler_wpmul2l (opn_ge0 _) (mxD _ _)) _.
  rewrite mxN mulrDr ler_add2l.
  apply: le_trans (ler_wpmul2l (opn_ge0 _) (opnP _ _)) _.
  by rewrite mulrA ler_wpmul2r ?mx_ge0.
have H2 : mx h <= 2%:R * (opn G * mx (jf x *m h)).
  move: H1; rewrite -ler_subl_addr => H1.
  have E2 : mx h - 2%:R^-1 * mx h = 2%:R^-1 * mx h.
    have {1}-> : mx h = (2%:R^-1 + 2%:R^-1) * mx h.
      by rewrite -mulr2n -[_ *+ 2]mulr_natl mulfV ?mul1r // pnatr_eq0.
    by rewrite -mulrBl addrK.
  by move: H1; rewrite E2 ler_pdivr_mull ?ltr0n.
apply: le_trans H2 _; rewrite -!mulrA ler_wpmul2l ?ler0n // ler_wpmul2l ?opn_ge0 //.
exact: proj_mx.
Qed.

(** the next point is quadratically closer, in the ball and in the affine space of the start *)
Lemma next_close rho d x : taylor r jf xs rho L -> r xs = 0 -> 0 <= L -> 0 < d -> d <= rho ->
  opn G * ((m * n)%:R * (6%:R * L * d)) <= 2%:R^-1 ->
  (forall x, within (x - xs) rho -> same_kernel (jf x) (jf xs)) ->
  within (x - xs) d -> (exists u, x - xs = (jf xs)^T *m u) ->
  [/\ mx (nx x - xs) <= 2%:R * opn G * (1 + m%:R) * L * mx (x - xs) ^+ 2,
      exists u, nx x - xs = (jf xs)^T *m u &
      forall v, mx (pinv (jf x) *m v) <= 2%:R * opn G * (1 + m%:R) * mx v].
Proof.
move=> HT Hz HL Hd Hdr Hs Hk Wx [u Eu].
have Wr : within (x - xs) rho by move=> i; apply: le_trans (Wx i) Hdr.
have W0 : within (xs - xs) rho by move=> k; rewrite subrr mxE normr0 (le_trans _ Hdr) // ltW.
have Hkx := Hk x Wr.
have Hk' : same_kernel (jf xs) (jf x) by move=> v; split=> /Hkx.
have Hb : forall v, mx (pinv (jf x) *m v) <= 2%:R * opn G * (1 + m%:R) * mx v.
  move=> v; apply: pinv_bound => //; apply: le_trans Hs; rewrite ler_wpmul2l ?opn_ge0 //.
  by apply: opn_le => i j; apply: lip HT Hd Hdr Wx.
have En : nx x - xs = pinv (jf x) *m (r xs - r x - jf x *m (xs - x)).
  have Ep : pinv (jf x) *m (jf x *m (x - xs)) = x - xs by rewrite Eu; apply: kernel_proj.
  rewrite /nx Hz sub0r -[xs - x]opprB mulmxN opprK mulmxDr mulmxN Ep.
  by rewrite addrAC [LHS]addrC.
split=> //.
- rewrite En; apply: le_trans (Hb _) _.
  rewrite -[in X in _ <= X]mulrA ler_wpmul2l //.
    by rewrite mulr_ge0 ?addr_ge0 ?ler0n ?ler01 // mulr_ge0 ?ler0n ?opn_ge0.
  apply/mx_le; first by rewrite mulr_ge0 // exprn_ge0 ?mx_ge0.
  by apply: (HT x xs) => // i; rewrite -opprB mxE normrN; apply: mx_entry.
- have [w Ew] := pinv_range_mem (jf x) (r x).
  have [w' Ew'] := same_kernel_range w Hk'.
  by exists (u - w'); rewrite mulmxBr -Eu -Ew' -Ew /nx addrAC.
Qed.
Lemma prod_rem (A1 Ah a B1 Bh b D1 Dh d : F) :
  (A1 + Ah + a + (B1 + Bh + b) * (D1 + Dh + d)) - (A1 + a + (B1 + b) * (D1 + d)) - (Ah + (B1 + b) * Dh + Bh * (D1 + d)) = Bh * Dh.
Proof. fring. Qed.
Lemma cubic_rem (x h : F) :
  ((x + h) ^+ 3 - 2%:R * (x + h) + 2%:R) - (x ^+ 3 - 2%:R * x + 2%:R) - (3%:R * x ^+ 2 - 2%:R) * h = (x + (x + (x + h))) * h ^+ 2.
Proof. fring. Qed.
Lemma cubic_m2 : (- 2%:R) ^+ 3 - 2%:R * - 2%:R + 2%:R = - 2%:R :> F.
Proof. fring. Qed.
Lemma cubic_m1 : (- 1) ^+ 3 - 2%:R * - 1 + 2%:R = 3%:R :> F.
Proof. fring. Qed.
End Newton.
