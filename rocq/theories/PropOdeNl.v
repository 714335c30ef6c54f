(** C100: nonlinear differential equations, solved with a constrained expression and NLLS. *)
From Coq Require Import ZArith Lia Reals Lra.
From Coquelicot Require Import Coquelicot.
From mathcomp Require Import all_ssreflect all_algebra.
From Verif Require Import Base ModelPe SpecPe ProofPe ModelSolve SpecSolve ProofSolve ModelPinv SpecPinv ProofPinv
  ModelAffine SpecAffine ProofAffine PropAffine SpecNewton ProofNewton ProofNewton2 ProofNewton3 PropNewton ProofOdeNl2.
From Verif Require Import Numbers ModelBFPy SpecBasis ModelELM SpecELM ModelUtfc SpecUtfc ProofUtfc ProofTab ProofIndep SpecColl ProofColl ProofRecover
  RealStruct SpecRecover PropRecover ModelOde SpecOde ProofOde PropOde ModelOdeNl SpecOdeNl ProofOdeNl.
Set Implicit Arguments.
Unset Strict Implicit.
Unset Printing Implicit Defensive.
Import GRing.Theory Num.Theory.
Local Open Scope ring_scope.

(** the residual function handed to the solver is that of the script *)
Definition runs_nl (Ar : Type) N n jvp (u : utfc (T:=R)) cs phi co g a b q (args : seq (value R_realFieldType Ar n))
    (res : seq (value R_realFieldType Ar n) -> 'cV[R]_N) : Prop :=
  forall xi : 'cV[R]_n, residual_nl jvp u cs phi co g a b q (fun_of xi) = Some [seq res (Unk xi :: args) i 0 | i <- enum 'I_N].
(** [M] holds the partial derivatives of [res] at [x] *)
Definition partials (Ar : Type) N n (res : seq (value R_realFieldType Ar n) -> 'cV[R]_N) (args : seq (value R_realFieldType Ar n))
    (x : 'cV[R]_n) (M : 'M[R]_(N, n)) : Prop :=
  forall i j, is_derive (fun t : R => res (Unk (x + t *: delta_mx j 0) :: args) i 0 : R) R0 (M i j : R).
(** automatic differentiation gives the partial derivatives where there are any; so does a Jacobian of
    the caller's *)
Definition takes_partials (Ar : Type) N n
    (jac : (seq (value R_realFieldType Ar n) -> 'cV[R]_N) -> seq (value R_realFieldType Ar n) -> 'M[R]_(N, n)) : Prop :=
  forall res args x M, partials res args x M -> jac res (Unk x :: args) = M.
Definition right_partials (Ar : Type) N n (J : option (seq (value R_realFieldType Ar n) -> 'M[R]_(N, n)))
    (args : seq (value R_realFieldType Ar n)) (res : seq (value R_realFieldType Ar n) -> 'cV[R]_N) : Prop :=
  forall j, J = Some j -> forall x, partials res args x (j (Unk x :: args)).

Lemma partials_unique (Ar : Type) N n (res : seq (value R_realFieldType Ar n) -> 'cV[R]_N) args x M M' :
  partials res args x M -> partials res args x M' -> M = M'.
Proof. by move=> H H'; apply/matrixP => i j; rewrite -(is_derive_unique _ _ _ (H i j)) -(is_derive_unique _ _ _ (H' i j)). Qed.

Lemma partials_prods (Ar : Type) N n (A B D : 'M[R]_(N, n)) (a b d : 'cV[R]_N) (res : seq (value R_realFieldType Ar n) -> 'cV[R]_N) args x :
  (forall xi, res (Unk xi :: args) = @prods R_realFieldType N n A B D a b d xi) ->
  partials res args x (@dprods R_realFieldType N n A B D a b d x).
Proof.
move=> Hr i j; pose P := @prods R_realFieldType N n A B D a b d x i 0 : R.
pose Q := @dprods R_realFieldType N n A B D a b d x i j : R; pose S := B i j * D i j : R.
apply: (is_derive_ext (fun t : R => Rplus (Rplus P (Rmult t Q)) (Rmult (Rmult t t) S))).
  by move=> t; rewrite Hr prods_line.
by rewrite -/Q; auto_derive => //; ring.
Qed.

Lemma solves_prods (Ar : Type) N n (A B D : 'M[R]_(N, n)) (a b d : 'cV[R]_N) jac (res : seq (value R_realFieldType Ar n) -> 'cV[R]_N) args J :
  takes_partials jac -> right_partials J args res ->
  (forall xi, res (Unk xi :: args) = @prods R_realFieldType N n A B D a b d xi) ->
  @solves_with R_realFieldType Ar N n jac res args J (prods A B D a b d) (dprods A B D a b d).
Proof.
move=> Hj HJ Hr x; split; first exact: Hr.
have Hp := partials_prods x Hr.
case: J HJ => [j|] HJ; last exact: Hj.
exact: partials_unique (HJ j erefl x) Hp.
Qed.

Lemma RmE (x y : R) : Rmult x y = x * y. Proof. by []. Qed.
Lemma RaE (x y : R) : Rplus x y = x + y. Proof. by []. Qed.
Lemma RsE (x y : R) : Rminus x y = x - y. Proof. by []. Qed.
Lemma R2E : 2%:R = IZR 2 :> R.
Proof. by rewrite -[2%:R]/(Rplus R1 R1); lra. Qed.
Lemma RpowE m : 2%:R ^+ m = pow 2 m :> R.
Proof. by elim: m => [|m IH]; rewrite ?expr0 // exprS IH R2E. Qed.
Lemma RinvE (x : R) : Rlt 0 x -> x^-1 = Rinv x.
Proof. by move=> Hx; rewrite -[x^-1]/(Rinvx x) /Rinvx; case: eqP => // E; move: Hx; rewrite E => /Rlt_irrefl. Qed.

Section Nl.
Variables (jvp : (R -> R) -> R -> R -> R) (be : backend) (f : fam) (N deg : nat).
Variables (x0 xf : R) (w b : seq R) (u : utfc (T:=R)) (cs : seq cond) (phi co : seq (seq R)) (g q : R -> R) (a1 b1 : nat).
Local Notation dd := (List.length cs).
Local Notation n := (Nat.sub (Nat.add deg 1%N) (List.length cs)).
Hypothesis Hj : jvp_ok jvp.
Hypothesis Hf : f <> FS.
Hypothesis HN : Peano.le 2 N.
Hypothesis Hx : Rlt x0 xf.
Hypothesis Hu : mk be (UB f) N (NcInt (Z.of_nat (List.length cs))) deg x0 xf w b = Some u.
Hypothesis Hphi : switching cs phi.

Lemma aff_row_col (F : (nat -> R) -> R) (H : aff n F) (xi : 'cV[R]_n) :
  F (fun_of xi) = \sum_(j < n) nth 0 (projT1 H) j * xi j 0 + sval (projT2 H).
Proof.
case: H => r [c [Hr E]] /=; rewrite E; congr Rplus.
by rewrite (row_comb_sum _ Hr); apply: eq_bigr => j _; rewrite fun_of_ord.
Qed.

Lemma nl_facts : exists (A B D : 'M[R]_(N, n)) (a b d : 'cV[R]_N),
  (forall (Ar : Type) args res, @runs_nl Ar N n jvp u cs phi co g a1 b1 q args res ->
     forall xi, res (Unk xi :: args) = @prods R_realFieldType N n A B D a b d xi) /\
  size (u_x u) = N /\
  (forall (xi : 'cV[R]_n) y, curve jvp u cs phi xi y -> forall i : 'I_N, let t := nth 0 (u_x u) i in
     [/\ (A *m xi + a) i 0 = Rminus (ode co y t) (q t), (B *m xi + b) i 0 = Rmult (g t) (Derive_n y a1 t) &
         (D *m xi + d) i 0 = Derive_n y b1 t]) /\
  (forall (xi xi' : 'cV[R]_n) y, curve jvp u cs phi xi y -> curve jvp u cs phi xi' y -> xi = xi') /\
  exists K : R, 0 <= K /\ forall (xi xi' : 'cV[R]_n) y y' e, curve jvp u cs phi xi y -> curve jvp u cs phi xi' y' ->
    @within R_realFieldType n (xi - xi') e -> forall t, Rle x0 t -> Rle t xf -> Rle (Rabs (Rminus (y t) (y' t))) (Rmult K e).
Proof.
have [h [HH [Hl [Hd [Hpol [_ [Hlen [_ _]]]]]]]] := rows0 _ Hj _ _ _ _ _ _ _ _ _ _ Hu Hf HN Hx.
have Hsz : size (u_x u) = N by rewrite -Hlen.
have Hcv (xi : 'cV[R]_n) y e t : curve jvp u cs phi xi y -> Derive_n y e t = Y h cs phi (fun_of xi) e t.
  by move=> Hc; have := Hc e t; rewrite (expr_ok _ _ _ _ _ _ HH) => -[].
pose FL x := @L_aff n h cs phi Hl x co 0; pose FY e x := @Y_aff n h cs phi Hl e x.
pose t_ (i : 'I_N) := nth 0 (u_x u) i.
pose A : 'M[R]_(N, n) := \matrix_(i, j) nth 0 (projT1 (FL (t_ i))) j.
pose B : 'M[R]_(N, n) := \matrix_(i, j) Rmult (g (t_ i)) (nth 0 (projT1 (FY a1 (t_ i))) j).
pose D : 'M[R]_(N, n) := \matrix_(i, j) nth 0 (projT1 (FY b1 (t_ i))) j.
pose a : 'cV[R]_N := \col_i Rminus (sval (projT2 (FL (t_ i)))) (q (t_ i)).
pose b' : 'cV[R]_N := \col_i Rmult (g (t_ i)) (sval (projT2 (FY a1 (t_ i)))).
pose d : 'cV[R]_N := \col_i sval (projT2 (FY b1 (t_ i))).
have EA (xi : 'cV[R]_n) i : (A *m xi + a) i 0 = Rminus (L h cs phi 0 co (fun_of xi) (t_ i)) (q (t_ i)).
  rewrite (aff_row_col (FL (t_ i))) mxE [a i 0]mxE [(A *m xi) i 0]mxE.
  have E1 : forall s' c' q' : R, s' + Rminus c' q' = Rminus (s' + c') q' by move=> s' c' q'; exact: esym (Rplus_assoc _ _ _).
  by rewrite E1; congr Rminus; congr Rplus; apply: eq_bigr => j _; rewrite mxE.
have EB (xi : 'cV[R]_n) i : (B *m xi + b') i 0 = Rmult (g (t_ i)) (Y h cs phi (fun_of xi) a1 (t_ i)).
  rewrite (aff_row_col (FY a1 (t_ i))) mxE [b' i 0]mxE [(B *m xi) i 0]mxE Rmult_plus_distr_l.
  congr Rplus; rewrite RmE mulr_sumr; apply: eq_bigr => j _; rewrite mxE RmE; exact: esym (mulrA _ _ _).
have ED (xi : 'cV[R]_n) i : (D *m xi + d) i 0 = Y h cs phi (fun_of xi) b1 (t_ i).
  rewrite (aff_row_col (FY b1 (t_ i))) mxE [d i 0]mxE [(D *m xi) i 0]mxE.
  by congr Rplus; apply: eq_bigr => j _; rewrite mxE.
exists A, B, D, a, b', d; split.
  move=> Ar args res Hrun xi; have := Hrun xi; rewrite (residual_nl_ok _ _ _ _ _ _ HH) => -[E].
  apply/matrixP=> i j; rewrite ord1 [RHS]mxE EA EB ED.
  have := congr1 (fun s => nth 0 s i) E; rewrite nth_map_real ?Hsz //.
  rewrite (nth_map i) ?size_enum_ord // nth_ord_enum => <-.
  by rewrite -/(t_ i) -RaE -RmE; lra.
split=> //; split.
  move=> xi y Hc i; cbv zeta; rewrite EA EB ED !(Hcv _ _ _ _ Hc); split=> //.
  rewrite (L_ode _ _ _ Hd); congr Rminus; apply: ode_ext => s.
  by rewrite -(Hcv _ _ 0%N _ Hc).
have HY0 (xi : 'cV[R]_n) y t : curve jvp u cs phi xi y -> y t = Y h cs phi (fun_of xi) 0 t by move=> Hc; rewrite -(Hcv _ _ 0%N _ Hc).
split.
  move=> xi xi' y Hc Hc'; apply/eqP; rewrite -subr_eq0; apply/eqP.
  have [l1 [Hl1 E1]] := switch_poly phi dd (proj1 (proj2 Hphi)) cs (List.map (K h (fun_of xi)) cs).
  have [l2 [Hl2 E2]] := switch_poly phi dd (proj1 (proj2 Hphi)) cs (List.map (K h (fun_of xi')) cs).
  have H0 := @rows0_indep jvp be f N dd deg x0 xf w b u h Hu Hf Hx HH (fun_of (xi - xi')) (padd l2 (pscale (Ropp R1) l1)) _ _.
  apply/matrixP => i j; rewrite ord1 -fun_of_ord [RHS]mxE; apply: H0.
  - by rewrite padd_length pscale_length; move: (length cs) Hl1 Hl2 => k; lia.
  - move=> x; rewrite peval_padd peval_pscale -E1 -E2.
    have Hr : row_comb (fun_of (xi - xi')) (h 0%N x) = Rminus (row_comb (fun_of xi) (h 0%N x)) (row_comb (fun_of xi') (h 0%N x)).
      rewrite !(row_comb_sum _ (Hl _ _)) RsE -sumrB; apply: eq_bigr => k _.
      by rewrite !fun_of_ord !mxE mulrBr.
    by rewrite Hr; have := HY0 _ _ x Hc; rewrite (HY0 _ _ x Hc') /Y; lra.
  - by apply/ltP; exact: ltn_ord.
have Hp (xi : 'cV[R]_n) : exists M : R, forall t, Rle x0 t -> Rle t xf -> Rle (Rabs (Y h cs phi (fun_of xi) 0 t)) M.
  have [l1 [_ E1]] := Hpol (fun_of xi).
  have [l2 [_ E2]] := switch_poly phi dd (proj1 (proj2 Hphi)) cs (List.map (K h (fun_of xi)) cs).
  exists (peval (List.map Rabs (padd l1 l2)) (Rmax (Rabs x0) (Rabs xf))) => t H1 H2.
  rewrite /Y E1 E2 -peval_padd; apply: peval_bound.
  by apply: Rabs_le; have := Rmax_l (Rabs x0) (Rabs xf); have := Rmax_r (Rabs x0) (Rabs xf); have := Rle_abs xf; have := Rle_abs (Ropp x0);
    rewrite Rabs_Ropp => ? ? ? ?; split; lra.
have [M0 HM0] := Hp 0; have [M HM] := fin_all_exists (fun j : 'I_n => Hp (delta_mx j 0)).
have HM0' : Rle 0 M0 by apply: Rle_trans (HM0 x0 _ _); [exact: Rabs_pos|lra|lra].
have HM' j : Rle 0 (M j) by apply: Rle_trans (HM j x0 _ _); [exact: Rabs_pos|lra|lra].
exists (\sum_(j < n) Rplus (M j) M0); split.
  by apply: sumr_ge0 => j _; apply/RlebP; exact: Rplus_le_le_0_compat (HM' j) HM0'.
move=> xi xi' y y' e Hc Hc' Hw t H1 H2.
have Erow (j : 'I_n) : nth 0 (projT1 (FY 0%N t)) j = Rminus (Y h cs phi (fun_of (delta_mx j 0 : 'cV[R]_n)) 0 t) (Y h cs phi (fun_of (0 : 'cV[R]_n)) 0 t) :> R.
  have -> : Y h cs phi (fun_of (0 : 'cV[R]_n)) 0 t = sval (projT2 (FY 0%N t)) :> R.
    by rewrite (aff_row_col (FY 0%N t)) big1 ?add0r // => k _; rewrite mxE mulr0.
  have -> : Y h cs phi (fun_of (delta_mx j 0 : 'cV[R]_n)) 0 t = Rplus (nth 0 (projT1 (FY 0%N t)) j) (sval (projT2 (FY 0%N t))) :> R.
    rewrite (aff_row_col (FY 0%N t)) (bigD1 j) //= big1; first by rewrite mxE !eqxx mulr1 addr0.
    by move=> k Hk; rewrite mxE (negbTE Hk) mulr0.
  lra.
have Ey : Rminus (y t) (y' t) = \sum_(j < n) nth 0 (projT1 (FY 0%N t)) j * (xi - xi') j 0.
  rewrite (HY0 _ _ _ Hc) (HY0 _ _ _ Hc') !(aff_row_col (FY 0%N t)).
  under [RHS]eq_bigr do rewrite mxE mxE mulrBr.
  rewrite sumrB RsE; move: (\sum_(k < n) _) (\sum_(k < n) _) (sval _) => s1 s2 s3.
  by rewrite opprD addrACA subrr addr0.
have Hb : `|\sum_(j < n) nth 0 (projT1 (FY 0%N t)) j * (xi - xi') j 0 : R| <= (\sum_(j < n) (M j + M0)) * e.
  rewrite mulr_suml; apply: Order.POrderTheory.le_trans (ler_norm_sum _ _ _) _; apply: ler_sum => j _; rewrite normrM.
  apply: (ler_pmul _ _ _ (Hw j)); rewrite ?normr_ge0 //.
  rewrite Erow; apply/RlebP.
  apply: Rle_trans (Rabs_triang _ _) _; rewrite Rabs_Ropp; apply: Rplus_le_compat; [exact: HM|exact: HM0].
by rewrite Ey; move/RlebP: Hb.
Qed.
End Nl.

Section Main.
Variables (Ar : Type) (jvp : (R -> R) -> R -> R -> R) (be : backend) (f : fam) (N deg : nat).
Variables (x0 xf : R) (w b : seq R) (u : utfc (T:=R)) (cs : seq cond) (phi co : seq (seq R)) (g q : R -> R) (a1 b1 : nat) (p : seq R).
Local Notation n := (Nat.sub (Nat.add deg 1%N) (List.length cs)).
Variables (jac : (seq (value R_realFieldType Ar n) -> 'cV[R]_N) -> seq (value R_realFieldType Ar n) -> 'M[R]_(N, n)).
Variables (res : seq (value R_realFieldType Ar n) -> 'cV[R]_N) (args : seq (value R_realFieldType Ar n)).
Variables (J : option (seq (value R_realFieldType Ar n) -> 'M[R]_(N, n))) (consts : seq nat) (s : method_).
Hypotheses (Hj : jvp_ok jvp) (Hf : f <> FS) (HN : Peano.le 2 N) (Hx : Rlt x0 xf).
Hypotheses (Hu : mk be (UB f) N (NcInt (Z.of_nat (List.length cs))) deg x0 xf w b = Some u) (Hphi : switching cs phi).
Hypotheses (Hjac : takes_partials jac) (HJ : right_partials J args res) (Hrun : runs_nl jvp u cs phi co g a1 b1 q args res).
Hypotheses (Hs : valid_method s) (Ha : ascending consts) (Hc : List.Forall (fun k => Peano.le 1 k /\ Peano.le k (length args)) consts).
Hypotheses (Hp : Peano.le (List.length p) (Nat.add deg 1)) (Hm : forall k, List.In k cs -> meets (poly_at p) k).
Hypotheses (Hsol : forall t, List.In t (u_x u) -> nl co g a1 b1 (poly_at p) t = q t).
Hypothesis (Hiso : isolated co g a1 b1 cs (Nat.add deg 1) (u_x u) (poly_at p)).

Lemma In_nth_mem (xs : seq R) t : List.In t xs -> exists2 i, (i < size xs)%N & nth 0 xs i = t.
Proof.
elim: xs => [|x xs IH] //= [<-|/IH [i Hi E]]; first by exists 0%N.
by exists i.+1.
Qed.
Lemma nth_mem_In (xs : seq R) i : (i < size xs)%N -> List.In (nth 0 xs i) xs.
Proof. by elim: xs i => [|x xs IH] [|i] //= Hi; [left|right; apply: IH]. Qed.

Lemma nl_main : exists (xs : 'cV[R]_n) (radius c K C : R),
  [/\ curve jvp u cs phi xs (poly_at p), Rlt 0 radius, Rlt 0 c & Rle 0 K /\ Rle 0 C] /\
  forall z : 'cV[R]_n, @within R_realFieldType n (z - xs) radius ->
  forall timer printOut cnd (tol : R) maxIter fuel, Rlt 0 tol -> Z.le maxIter (Z.of_nat fuel) -> Peano.le 1 fuel ->
  exists (xi : 'cV[R]_n) k out y,
    [/\ fst (vNLLS jac fuel (Unk z) res args consts J cnd None tol maxIter s timer printOut) = NReturns (NResult (Unk xi) (Z.of_nat k) out),
      curve jvp u cs phi xi y, (forall k, List.In k cs -> meets y k),
      (forall t, Rle x0 t -> Rle t xf -> Rle (Rabs (Rminus (y t) (poly_at p t))) (Rdiv K (pow 2 (2 ^ k)))) &
      forall K', Rlt tol 1 -> Rle 2 (Rmult (Rmult tol c) (pow 2 (2 ^ K'))) -> Z.lt (Z.of_nat K'.+1) maxIter ->
        (k <= K'.+1)%N /\ forall t, Rle x0 t -> Rle t xf -> Rle (Rabs (Rminus (y t) (poly_at p t))) (Rmult C tol)].
Proof.
have [A0 [c0 [_ [_ [_ [_ [Hcur Hex]]]]]]] := @script_facts unit jvp be f N deg x0 xf w b u cs phi co [::] Hj Hf HN Hx Hu Hphi.
have [A [B [D [a [b' [d [Hres [Hsz [Hrow [Huniq [K [HK Hbnd]]]]]]]]]]]] := @nl_facts jvp be f N deg x0 xf w b u cs phi co g q a1 b1 Hj Hf HN Hx Hu Hphi.
have [xs Hxs] := Hex p Hp Hm.
pose r := @prods R_realFieldType N n A B D a b' d; pose jf := @dprods R_realFieldType N n A B D a b' d.
have Hsw : @solves_with R_realFieldType Ar N n jac res args J r jf by apply: solves_prods => //; exact: Hres.
have [L [HL0 HL]] := @C99_products R_realFieldType N n A B D a b' d xs 1.
have Hin (i : 'I_N) : List.In (nth 0 (u_x u) i) (u_x u) by apply: nth_mem_In; rewrite Hsz.
have Hr0 : r xs = 0.
  apply/matrixP => i j; rewrite ord1 [RHS]mxE mxE; have [-> -> ->] := Hrow _ _ Hxs i.
  have := Hsol (Hin i); rewrite /nl -RmE -RaE => <-.
  by rewrite -[RHS]/R0; lra.
have Hrank : row_free (jf xs)^T.
  apply: full_of_kernel => h Hh; have [y [l [Hy [[Hl Ey] [Hym _]]]]] := Hcur (xs + h).
  have Hyl : curve jvp u cs phi (xs + h) (poly_at l).
    by move=> e t; rewrite Hy (Derive_n_ext y (poly_at l) e t Ey).
  pose v := padd l (pscale (Ropp R1) p).
  have Hv0 : forall t, poly_at v t = R0.
    apply: Hiso.
    - by rewrite padd_length pscale_length; apply: Nat.max_lub.
    - by move=> k Hk; rewrite Derive_n_psub -(Derive_n_ext y (poly_at l) _ _ Ey) (Hym _ Hk) (Hm Hk); lra.
    - move=> t /In_nth_mem [i Hi Et]; rewrite Hsz in Hi.
      have := congr1 (fun M : 'cV[R]_N => M (Ordinal Hi) 0) Hh; rewrite dprods_dir [RHS]mxE.
      have [E1 E2 E3] := Hrow _ _ Hxs (Ordinal Hi); have [F1 F2 F3] := Hrow _ _ Hyl (Ordinal Hi).
      have add_h (M : 'M[R]_(N, n)) (m : 'cV[R]_N) (k : 'I_N) : (M *m h) k 0 = (M *m (xs + h) + m) k 0 - (M *m xs + m) k 0.
        by rewrite mulmxDr -[_ + _ + m]addrA [_ + m]addrC addrA [(_ + (_ *m h) : 'cV_N) _ _]mxE addrAC subrr add0r.
      rewrite (add_h A a) (add_h B b') (add_h D d) E1 E2 E3 F1 F2 F3 /= Et -!RsE -!RaE -!RmE -[0]/R0 => E.
      by rewrite /nl_lin ode_psub !Derive_n_psub; lra.
  have Hpl : curve jvp u cs phi (xs + h) (poly_at p).
    move=> e t; rewrite Hyl (Derive_n_ext (poly_at l) (poly_at p)) // => s'.
    by have := Derive_n_psub l p 0 s'; rewrite /= -/v (Hv0 s'); lra.
  by have := Huniq _ _ _ Hxs Hpl => /(congr1 (fun M => M - xs)); rewrite subrr addrC addKr.
have [radius [c [C [Hrad Hcp HC Hgo]]]] := C99_full_rank Hsw Hs Ha Hc HL Hr0 HL0 ltr01 Hrank.
exists xs, radius, c, (Rdiv K c), (Rmult K C); split.
  have Hc' : Rlt 0 c by move/RltbP: Hcp.
  have HK' : Rle 0 K by move/RlebP: HK.
  have HC' : Rlt 0 C by move/RltbP: HC.
  split=> //; first by move/RltbP: Hrad.
  split; last by apply: Rmult_le_pos => //; left.
  by apply: Rmult_le_pos => //; left; apply: Rinv_0_lt_compat.
move=> z Hz timer printOut cnd tol maxIter fuel Htol HM Hfl.
have Htol' : 0 < tol by apply/RltbP.
have [xi [k [out [E1 _ E3 E4]]]] := Hgo z Hz timer printOut cnd tol maxIter fuel Htol' HM Hfl.
have [y [l [Hy [_ [Hym _]]]]] := Hcur xi.
exists xi, k, out, y; split=> //.
  move=> t H1 H2; have := Hbnd _ _ _ _ _ Hy Hxs E3 t H1 H2.
  have Hc' : Rlt 0 c by move/RltbP: Hcp.
  have Hpw : Rlt 0 (pow 2 (2 ^ k)) by apply: pow_lt; lra.
  rewrite RinvE RpowE; last exact: Rmult_lt_0_compat.
  rewrite -RmE Rinv_mult_distr; [|exact: Rgt_not_eq|exact: Rgt_not_eq].
  by rewrite /Rdiv Rmult_assoc.
move=> K' Ht1 H2 HM'.
have Ht1' : tol < 1 by apply/RltbP.
have H2' : 2%:R <= tol * c * 2%:R ^+ (2 ^ K') by apply/RlebP; rewrite RpowE R2E.
have [Hk Hw] := E4 K' Ht1' H2' HM'; split=> // t H1 H3.
by have := Hbnd _ _ _ _ _ Hy Hxs Hw t H1 H3; rewrite -RmE -Rmult_assoc.
Qed.
End Main.

(** ** C100 *)
(** If a polynomial of the basis' degree meets the conditions and satisfies the equation at the points,
    and the linearised equation at it has only the zero solution, then NLLS started with coefficients
    near those of the solution returns after [k] iterations the coefficients of a curve that meets the
    conditions exactly and is within [K / 2^(2^k)] of the solution on the whole interval.  With enough
    iterations allowed it stops by itself, within a multiple of [tol] of the solution. *)
Theorem C100_converges : forall (Ar : Type) jvp be f N deg x0 xf w b u cs phi co g q a1 b1 p,
  jvp_ok jvp -> f <> FS -> Peano.le 2 N -> Rlt x0 xf ->
  mk be (UB f) N (NcInt (Z.of_nat (List.length cs))) deg x0 xf w b = Some u -> switching cs phi ->
  Peano.le (List.length p) (Nat.add deg 1) -> (forall k, List.In k cs -> meets (poly_at p) k) ->
  (forall t, List.In t (u_x u) -> nl co g a1 b1 (poly_at p) t = q t) ->
  isolated co g a1 b1 cs (Nat.add deg 1) (u_x u) (poly_at p) ->
  let n := Nat.sub (Nat.add deg 1%N) (List.length cs) in
  forall (jac : (seq (value R_realFieldType Ar n) -> 'cV[R]_N) -> seq (value R_realFieldType Ar n) -> 'M[R]_(N, n))
    (res : seq (value R_realFieldType Ar n) -> 'cV[R]_N) args J consts s,
  takes_partials jac -> runs_nl jvp u cs phi co g a1 b1 q args res -> right_partials J args res -> valid_method s ->
  ascending consts -> List.Forall (fun k => Peano.le 1 k /\ Peano.le k (length args)) consts ->
  exists (xs : 'cV[R]_n) (radius c K C : R),
  [/\ curve jvp u cs phi xs (poly_at p), Rlt 0 radius, Rlt 0 c & Rle 0 K /\ Rle 0 C] /\
  forall z : 'cV[R]_n, (forall i, Rle (Rabs (Rminus (z i 0) (xs i 0))) radius) ->
  forall timer printOut cnd (tol : R) maxIter fuel, Rlt 0 tol -> Z.le maxIter (Z.of_nat fuel) -> Peano.le 1 fuel ->
  exists (xi : 'cV[R]_n) k out y,
    [/\ fst (vNLLS jac fuel (Unk z) res args consts J cnd None tol maxIter s timer printOut) = NReturns (NResult (Unk xi) (Z.of_nat k) out),
      curve jvp u cs phi xi y, (forall k, List.In k cs -> meets y k),
      (forall t, Rle x0 t -> Rle t xf -> Rle (Rabs (Rminus (y t) (poly_at p t))) (Rdiv K (pow 2 (2 ^ k)))) &
      forall K', Rlt tol 1 -> Rle 2 (Rmult (Rmult tol c) (pow 2 (2 ^ K'))) -> Z.lt (Z.of_nat K'.+1) maxIter ->
        (k <= K'.+1)%N /\ forall t, Rle x0 t -> Rle t xf -> Rle (Rabs (Rminus (y t) (poly_at p t))) (Rmult C tol)].
Proof.
move=> Ar jvp be f N deg x0 xf w b u cs phi co g q a1 b1 p Hj Hf HN Hx Hu Hphi Hp Hm Hsol Hiso n jac res args J consts s Hjac Hrun HJ Hs Ha Hc.
have [xs [radius [c [K [C [H1 H2]]]]]] := nl_main Hj Hf HN Hx Hu Hphi Hjac HJ Hrun Hs Ha Hc Hp Hm Hsol Hiso.
exists xs, radius, c, K, C; split; first exact: H1.
move=> z Hz; apply: H2 => i; apply/RlebP; rewrite !mxE; exact: (Hz i).
Qed.
Print Assumptions C100_converges.

(** For an initial value problem whose highest derivative appears only linearly, with a coefficient that is
    not zero at the initial point, nothing need be asked of the linearised equation: enough points do. *)
Theorem C100_initial_value : forall (Ar : Type) jvp be f N deg x0 xf w b u p0 v d phi co gp q a1 b1 p,
  jvp_ok jvp -> f <> FS -> Peano.le 2 N -> Rlt x0 xf ->
  mk be (UB f) N (NcInt (Z.of_nat d)) deg x0 xf w b = Some u -> switching (initial p0 v d) phi ->
  List.length co = S d -> poly_at (List.last co [::]) p0 <> R0 -> Peano.lt a1 d -> Peano.lt b1 d ->
  Peano.le (List.length p) (Nat.add deg 1) -> (forall k, Peano.lt k d -> Derive_n (poly_at p) k p0 = v k) ->
  (forall t, List.In t (u_x u) -> nl co (poly_at gp) a1 b1 (poly_at p) t = q t) ->
  (forall k c, List.nth_error co k = Some c -> Peano.le (Nat.add (List.length c) deg) (Nat.add N k)) ->
  Peano.le (Nat.add (List.length gp) (Nat.mul 2 deg)) (Nat.add (Nat.add N a1) b1) ->
  let cs := initial p0 v d in
  let n := Nat.sub (Nat.add deg 1%N) d in
  forall (jac : (seq (value R_realFieldType Ar n) -> 'cV[R]_N) -> seq (value R_realFieldType Ar n) -> 'M[R]_(N, n))
    (res : seq (value R_realFieldType Ar n) -> 'cV[R]_N) args J consts s,
  takes_partials jac -> runs_nl jvp u cs phi co (poly_at gp) a1 b1 q args res -> right_partials J args res -> valid_method s ->
  ascending consts -> List.Forall (fun k => Peano.le 1 k /\ Peano.le k (length args)) consts ->
  exists (xs : 'cV[R]_n) (radius c K C : R),
  [/\ curve jvp u cs phi xs (poly_at p), Rlt 0 radius, Rlt 0 c & Rle 0 K /\ Rle 0 C] /\
  forall z : 'cV[R]_n, (forall i, Rle (Rabs (Rminus (z i 0) (xs i 0))) radius) ->
  forall timer printOut cnd (tol : R) maxIter fuel, Rlt 0 tol -> Z.le maxIter (Z.of_nat fuel) -> Peano.le 1 fuel ->
  exists (xi : 'cV[R]_n) k out y,
    [/\ fst (vNLLS jac fuel (Unk z) res args consts J cnd None tol maxIter s timer printOut) = NReturns (NResult (Unk xi) (Z.of_nat k) out),
      curve jvp u cs phi xi y, (forall i, Peano.lt i d -> Derive_n y i p0 = v i),
      (forall t, Rle x0 t -> Rle t xf -> Rle (Rabs (Rminus (y t) (poly_at p t))) (Rdiv K (pow 2 (2 ^ k)))) &
      forall K', Rlt tol 1 -> Rle 2 (Rmult (Rmult tol c) (pow 2 (2 ^ K'))) -> Z.lt (Z.of_nat K'.+1) maxIter ->
        (k <= K'.+1)%N /\ forall t, Rle x0 t -> Rle t xf -> Rle (Rabs (Rminus (y t) (poly_at p t))) (Rmult C tol)].
Proof.
move=> Ar jvp be f N deg x0 xf w b u p0 v d phi co gp q a1 b1 p Hj Hf HN Hx Hu Hphi Hco Hlead Ha1 Hb1 Hp Hiv Hsol Hlen Hgp.
have Ed : List.length (initial p0 v d) = d by rewrite /initial List.map_length List.seq_length.
have Hin k : Peano.lt k d -> List.In (Cond k p0 (v k)) (initial p0 v d).
  by move=> Hk; apply/List.in_map_iff; exists k; split=> //; apply/List.in_seq; lia.
have Hms : forall k, List.In k (initial p0 v d) -> meets (poly_at p) k.
  by move=> k /List.in_map_iff [i [<- /List.in_seq Hi]]; rewrite /meets /=; apply: Hiv; lia.
have [h [_ [_ [_ [_ [_ [Hlenx [Hnd Hdd]]]]]]]] := rows0 _ Hj _ _ _ _ _ _ _ _ _ _ Hu Hf HN Hx.
have Hiso : isolated co (poly_at gp) a1 b1 (initial p0 v d) (Nat.add deg 1) (u_x u) (poly_at p).
  by apply: ivp_isolated => //; rewrite Hlenx.
move: Hin Hphi Ed Hms Hiso; move Ecs : (initial p0 v d) => cs Hin Hphi Ed Hms Hiso; subst d.
move=> cs' n jac res args J consts s Hjac Hrun HJ Hs Ha Hc.
have [xs [radius [c [K [C [H1 H2]]]]]] := @C100_converges Ar jvp be f N deg x0 xf w b u cs phi co (poly_at gp) q a1 b1 p Hj Hf HN Hx Hu Hphi
  Hp Hms Hsol Hiso jac res args J consts s Hjac Hrun HJ Hs Ha Hc.
exists xs, radius, c, K, C; split; first exact: H1.
move=> z Hz timer printOut cnd tol maxIter fuel Ht HM Hfl.
have [xi [k [out [y [E1 E2 E3 E4 E5]]]]] := H2 z Hz timer printOut cnd tol maxIter fuel Ht HM Hfl.
exists xi, k, out, y; split=> //.
move=> i Hi; exact: E3 (Hin i Hi).
Qed.
Print Assumptions C100_initial_value.

(** automatic differentiation as a function of the residual *)
Definition derive_jac (Ar : Type) N n (res : seq (value R_realFieldType Ar n) -> 'cV[R]_N) (l : seq (value R_realFieldType Ar n)) : 'M[R]_(N, n) :=
  if l is Unk x :: args then \matrix_(i, j) Derive (fun t : R => res (Unk (x + t *: delta_mx j 0) :: args) i 0 : R) R0 else 0.
Lemma derive_jac_ok (Ar : Type) N n : takes_partials (@derive_jac Ar N n).
Proof. by move=> res args x M H; apply/matrixP => i j; rewrite mxE; apply: is_derive_unique; apply: H. Qed.

(** y' + y y = 1 + t^2, y(0) = 0: NLLS with the functions T1, T2, six points and [maxIter] 10 finds y = t from any nearby
    coefficients, with any number of significant digits asked for that ten iterations can give *)
Example C100_case : exists u (xs : 'cV[R]_2) (radius c C : R) (res : seq (value R_realFieldType unit 2) -> 'cV[R]_6),
  let cs := initial R0 (fun _ => R0) 1 in let phi := [:: [:: R1]] in
  [/\ mk Py (UB CP) 6 (NcInt (Z.of_nat 1)) 2 R0 R1 [::] [::] = Some u,
      runs_nl rjvp u cs phi [:: [::]; [:: R1]] (poly_at [:: R1]) 0 0 (poly_at [:: R1; R0; R1]) [::] res,
      curve rjvp u cs phi xs (poly_at [:: R0; R1]), Rlt 0 radius /\ Rlt 0 c &
      forall (z : 'cV[R]_2) (tol : R), (forall i, Rle (Rabs (Rminus (z i 0) (xs i 0))) radius) ->
      Rlt 0 tol -> Rlt tol 1 -> Rle 2 (Rmult (Rmult tol c) (pow 2 (2 ^ 8))) ->
      exists xi k out y,
        [/\ fst (vNLLS (@derive_jac unit 6 2) 10 (Unk z) res [::] [::] None None None tol 10 Pinv false false) = NReturns (NResult (Unk xi) (Z.of_nat k) out),
          (k <= 9)%N, curve rjvp u cs phi xi y, y R0 = R0 & forall t, Rle 0 t -> Rle t 1 -> Rle (Rabs (Rminus (y t) t)) (Rmult C tol)]].
Proof.
have [||||u Hu] := @mk_some Py (UB CP) 6 (NcInt (Z.of_nat 1)) [:: Z.of_nat 0] 2 R0 R1 [::] [::] erefl.
- by rewrite /=; lia.
- by move=> i [<-|[]]; lia.
- by left.
- by lia.
have Hx : Rlt R0 R1 by lra.
pose cs := initial R0 (fun _ => R0) 1; pose phi := [:: [:: R1]].
pose co := [:: [::]; [:: R1]]; pose q := poly_at [:: R1; R0; R1]; pose g := poly_at [:: R1].
have Hphi : switching cs phi.
  split=> //; split; first by move=> p [<-|[]] /=; lia.
  move=> [|i] [|j] k p /=.
  - by move=> [<-] [<-]; rewrite Derive_n_poly_at /=; lra.
  - by case: j.
  - by case: i.
  - by case: i.
have H2 : Peano.le 2 6 by lia.
have [A [c0' [_ [Hsz _]]]] := @script_facts unit rjvp Py CP 6 2 R0 R1 [::] [::] u cs phi co [::] rjvp_ok ltac:(discriminate) H2 Hx Hu Hphi.
have [h [HH _]] := rows0 _ rjvp_ok _ _ _ _ _ _ _ _ _ _ Hu ltac:(discriminate) H2 Hx.
pose res (l : seq (value R_realFieldType unit 2)) : 'cV[R]_6 :=
  if l is Unk x :: _ then \col_i nth 0 (odflt [::] (residual_nl rjvp u cs phi co g 0 0 q (fun_of x))) i else 0.
have Hrun : runs_nl rjvp u cs phi co g 0 0 q [::] res.
  move=> xi; rewrite (residual_nl_ok _ _ _ _ _ _ HH); congr Some.
  apply: (@eq_from_nth _ 0); first by rewrite [RHS]size_map size_enum_ord -[RHS]Hsz; exact: List.map_length.
  move=> i; rewrite -[size _]/(List.length _) List.map_length => Hi.
  have Hi6 : (i < 6)%N by rewrite -Hsz.
  rewrite (nth_map (Ordinal Hi6)) ?size_enum_ord // /res mxE (residual_nl_ok _ _ _ _ _ _ HH) /=.
  by rewrite nth_enum_ord.
have Hne : CP <> FS by [].
have Hlead : poly_at (List.last co [::]) R0 <> R0 by rewrite /=; apply: Rgt_not_eq; lra.
have Hls : Peano.le (List.length [:: R0; R1]) (Nat.add 2 1) by rewrite /=; lia.
have Hiv k : Peano.lt k 1 -> Derive_n (poly_at [:: R0; R1]) k R0 = R0.
  by move=> Hk; have -> : k = 0%N by [lia]; rewrite /=; lra.
have Hode t : List.In t (u_x u) -> nl co g 0 0 (poly_at [:: R0; R1]) t = q t.
  move=> _; have -> y : nl co g 0 0 y t = Rplus (Rplus (Rmult (poly_at [::] t) (Derive_n y 0 t)) (Rplus (Rmult (poly_at [:: R1] t) (Derive_n y 1 t)) R0))
     (Rmult (Rmult (g t) (Derive_n y 0 t)) (Derive_n y 0 t)) by [].
  by rewrite !Derive_n_poly_at /g /q /=; lra.
have Hlen k c : List.nth_error co k = Some c -> Peano.le (Nat.add (List.length c) 2) (Nat.add 6 k).
  by case: k => [|[|[|k]]] //= [<-] /=; lia.
have Hgp : Peano.le (Nat.add (List.length [:: R1]) (Nat.mul 2 2)) (Nat.add (Nat.add 6 0) 0) by rewrite /=; lia.
have H01 : Peano.lt 0 1 by lia.
have Hj0 : @right_partials unit 6 2 None [::] res by [].
have [xs [radius [c [K [C [[Hxs Hrad Hc _] Hgo]]]]]] := @C100_initial_value unit rjvp Py CP 6 2 R0 R1 [::] [::] u R0 (fun _ => R0) 1 phi co [:: R1] q 0 0
  [:: R0; R1] rjvp_ok Hne H2 Hx Hu Hphi erefl Hlead H01 H01 Hls (fun k Hk => Hiv k Hk) Hode Hlen Hgp (@derive_jac unit 6 2) res [::] None [::] Pinv
  (@derive_jac_ok _ _ _) Hrun Hj0 ltac:(by []) ltac:(constructor) ltac:(constructor).
exists u, xs, radius, c, C, res; split=> // z tol Hz Ht0 Ht1 Hbig.
have HM : Z.le (Z.succ 9) (Z.of_nat 10) by lia.
have Hfl : Peano.le 1 10 by lia.
have [xi [k [out [y [E1 E2 E3 _ E5]]]]] := Hgo z Hz false false None tol (Z.succ 9) 10%N Ht0 HM Hfl.
have [|Hk Hy] := E5 8%N Ht1 Hbig; first by lia.
exists xi, k, out, y; split=> //; first exact: (E3 0%N H01).
move=> t H1 H3; have := Hy t H1 H3.
by have -> : poly_at [:: R0; R1] t = t by rewrite /=; lra.
Qed.
