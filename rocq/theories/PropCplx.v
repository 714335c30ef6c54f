(** C97: complex unknowns and residuals, in exact arithmetic. *)
From Coq Require Import ZArith Lia.
From mathcomp Require Import all_ssreflect all_algebra.
From Verif Require Import Base ModelPe SpecPe ProofPe ModelSolve SpecSolve ProofSolve ModelCplx SpecCplx ProofCplx ProofCplx2 ProofCplx3.
Set Implicit Arguments.
Unset Strict Implicit.
Unset Printing Implicit Defensive.
Import GRing.Theory Num.Theory.
Local Open Scope ring_scope.

(** The matrix used for [np.linalg.pinv] is the Moore-Penrose inverse of a complex matrix. *)
Theorem C97_pinv : forall (F : numClosedFieldType) m n (A : 'M[F]_(m, n)),
  cpenrose A (hpinv A) /\ forall X, cpenrose A X -> X = hpinv A.
Proof. by move=> F m n A; split=> [|X HX]; [apply: pinv_penrose|apply: penrose_unique HX (pinv_penrose A)]. Qed.
Print Assumptions C97_pinv.

(** LS on a residual affine in complex unknowns, from unknowns of either dtype: with the flag
    [holomorphic] set as jax wants it, or a Jacobian of the caller's, it returns the minimiser of the
    sum of squared moduli that is itself shortest; otherwise it raises. *)
Theorem C97_ls : forall (F : numClosedFieldType) (Ar : Type) m n
    (jac : (seq (cvalue F Ar n) -> 'cV[F]_m) -> seq (cvalue F Ar n) -> 'M[F]_(m, n))
    (res : seq (cvalue F Ar n) -> 'cV[F]_m) (args : seq (cvalue F Ar n)) (A : 'M[F]_(m, n)) b J holo dz dr z consts s timer,
  cdifferentiates jac -> cres_is res args A b -> cuser_jac J args A -> is_method s ->
  ascending consts -> List.Forall (fun k => Peano.le 1 k /\ Peano.le k (length args)) consts ->
  (J <> None \/ (holo = true /\ dz = Complex /\ dr = Complex) \/ (holo = false /\ dz = Float) ->
   exists d x, cLS jac holo dz dr (CUnk z) res args consts J s timer = Some (d, CUnk x, List.rev consts) /\
     cminimises (caffine A b) x /\ cshortest (caffine A b) x /\
     ((exists y, caffine A b y = 0) -> caffine A b x = 0) /\
     (d = Complex <-> dz = Complex \/ dr = Complex \/ exists j, J = Some (Complex, j))) /\
  (~ (J <> None \/ (holo = true /\ dz = Complex /\ dr = Complex) \/ (holo = false /\ dz = Float)) ->
   cLS jac holo dz dr (CUnk z) res args consts J s timer = None).
Proof.
move=> F Ar m n jac res args A b J holo dz dr z consts s timer jac_ok res_ok J_ok Hs Ha Hb.
have J_ok' : forall j, omap snd J = Some j -> forall x, j (CUnk x :: args) = A.
  by case: J J_ok => [[d j]|] //= J_ok j' [<-] x; apply: (J_ok d j).
have Htr : step_traces holo dz dr (omap fst J) <->
    (J <> None \/ (holo = true /\ dz = Complex /\ dr = Complex) \/ (holo = false /\ dz = Float)).
  by case: (J) => [j|]; case: holo; case: dz; case: dr => /=; split => //; intuition discriminate.
split=> H.
  have {}H := proj2 Htr H.
  exists (promote dz (step_dtype dr (omap fst J))), (hpinv A *m - b); split.
    by rewrite /cLS H (vls_value jac_ok res_ok J_ok').
  have Hm := pinv_minimises A b.
  split=> //; split; first exact: pinv_shortest.
  split.
    case=> y Hy; apply: cnorm2_eq0; apply/eqP; rewrite Order.POrderTheory.eq_le cnorm2_ge0 andbT.
    by have := Hm y; rewrite Hy cnorm20.
  case: dz {Htr H}; case: (J) => [[[] j]|]; case: dr => /=; split=> //; (try by intuition);
    first [by right; right; exists j | by move=> _; right; right; exists j | by case=> [//|[//|[j' [E]]]] | by case=> [E|[E|[j' E]]]; discriminate E].
rewrite /cLS; case E: step_traces => //; exfalso; exact: H (proj1 Htr E).
Qed.
Print Assumptions C97_ls.

(** NLLS, likewise: but the unknowns must already have the dtype of the steps.  Then one step
    reaches the least-squares solution nearest to the start and two end it. *)
Theorem C97_nlls : forall (F : numClosedFieldType) (Ar : Type) m n
    (jac : (seq (cvalue F Ar n) -> 'cV[F]_m) -> seq (cvalue F Ar n) -> 'M[F]_(m, n))
    (res : seq (cvalue F Ar n) -> 'cV[F]_m) (args : seq (cvalue F Ar n)) (A : 'M[F]_(m, n)) b J holo dz dr x0 consts s timer printOut cond tol maxIter fuel,
  cdifferentiates jac -> cres_is res args A b -> cuser_jac J args A -> is_method s ->
  ascending consts -> List.Forall (fun k => Peano.le 1 k /\ Peano.le k (length args)) consts ->
  0 <= tol -> Z.le maxIter (Z.of_nat fuel) -> Peano.le 1 fuel ->
  (dz = (if J is Some (Complex, _) then Complex else dr) -> J <> None \/ (holo : bool) = cplx dz ->
   exists x k out, fst (cNLLS jac holo dz dr fuel (CUnk x0) res args consts J cond tol maxIter s timer printOut)
      = NReturns (NResult (CUnk x) (Z.of_nat k) out) /\ (k <= 2)%N /\
    ((0 < n)%N -> tol < 1 -> Z.le 1 maxIter -> tol < c_maxabs (caffine A b x0) -> (0 < k)%N) /\
    ((0 < k)%N -> cminimises (caffine A b) x /\
       (forall y, cminimises (caffine A b) y -> cnorm2 (y - x0) <= cnorm2 (x - x0) -> y = x))) /\
  (dz <> (if J is Some (Complex, _) then Complex else dr) \/ (J = None /\ holo <> cplx dz) ->
   fst (cNLLS jac holo dz dr fuel (CUnk x0) res args consts J cond tol maxIter s timer printOut) = NRaises).
Proof.
move=> F Ar m n jac res args A b J holo dz dr x0 consts s timer printOut cond tol maxIter fuel jac_ok res_ok J_ok Hs Ha Hb Ht Hf H1.
have J_ok' : forall j, omap snd J = Some j -> forall x, j (CUnk x :: args) = A.
  by case: J J_ok => [[d j]|] //= J_ok j' [<-] x; apply: (J_ok d j).
split=> [Hd Hj|Hd]; last first.
  rewrite /cNLLS; case: J Hd {J_ok J_ok'} => [[[] j]|]; case: holo; case: dz; case: dr => //= Hd; exfalso; intuition congruence.
have Hty : step_traces holo dz dr (omap fst J) && (if step_dtype dr (omap fst J) is Complex then cplx dz else ~~ cplx dz).
  by case: J Hd Hj {J_ok J_ok'} => [[[] j]|]; case: holo; case: dz; case: dr => //= Hd Hj; exfalso; intuition congruence.
have [k [[Hk Hn] E]] := @nlls_spec _ _ _ _ _ (@c_pinv_dot F m n) (@c_pinv_dot F m n) (@c_sub F Ar n) (@c_ones F Ar n)
  (@c_maxabs F m) (@c_maxabs F n) (@c_gt F) jac fuel (CUnk x0) res args consts (omap snd J) cond tol maxIter s timer printOut _ (@c_subt F Ar n)
  (solve_valid _ _ _ Hs) (fun _ _ => erefl) Ha Hb Hf H1.
have Hk2 : (k <= 2)%N.
  rewrite leqNgt; apply/negP=> Hlt; exact: (Hn 2%N (ltP Hlt) (stop_two jac_ok res_ok J_ok' _ _ _ Ht)).
have Hx : (0 < k)%N -> iterate (@c_subt F Ar n) (the_upd jac (@c_pinv_dot F m n) res (omap snd J) args) k (CUnk x0) = CUnk (star A b x0).
  by case: k {Hk Hn E Hk2} => // k _; rewrite (iterate_star jac_ok res_ok J_ok').
case: k Hk Hn E Hk2 Hx => [|k] Hk Hn E Hk2 Hx.
  exists x0, 0%N; eexists; split; first by rewrite /cNLLS Hty E; reflexivity.
  split=> //; split=> //.
  move=> Hn0 Ht1 HM Hr; exfalso; case: Hk => [|[|]] /=.
  - by rewrite res_ok /c_gt Hr.
  - by move=> HM'; lia.
  - by rewrite /c_ones maxabs1 // /c_gt Ht1.
exists (star A b x0), k.+1; eexists; split; first by rewrite /cNLLS Hty E Hx //; reflexivity.
split=> //; split=> // _; split; first exact: star_minimises.
by move=> y; apply: star_nearest.
Qed.
Print Assumptions C97_nlls.

(** What LS solves NLLS refuses: real zeros to start from and a complex residual, the call of the
    test suite, raise in NLLS whatever [holomorphic] says. *)
Theorem C97_nlls_real_start_refuted : forall (F : numClosedFieldType) (Ar : Type) m n
    (jac : (seq (cvalue F Ar n) -> 'cV[F]_m) -> seq (cvalue F Ar n) -> 'M[F]_(m, n))
    (res : seq (cvalue F Ar n) -> 'cV[F]_m) (args : seq (cvalue F Ar n)) (A : 'M[F]_(m, n)) b z s timer,
  cdifferentiates jac -> cres_is res args A b -> is_method s ->
  (exists x, cLS jac false Float Complex (CUnk z) res args [::] None s timer = Some (Complex, CUnk x, [::]) /\
     cminimises (caffine A b) x) /\
  forall holo fuel cond tol maxIter timer' printOut,
    cNLLS jac holo Float Complex fuel (CUnk z) res args [::] None cond tol maxIter s timer' printOut = (NRaises, [::]).
Proof.
move=> F Ar m n jac res args A b z s timer jac_ok res_ok Hs.
have J_ok : forall j, None = Some j -> forall x, j (CUnk x :: args) = A by [].
split; last by case.
exists (hpinv A *m - b); split; last exact: pinv_minimises.
by rewrite /cLS /= (vls_value jac_ok res_ok J_ok) //; constructor.
Qed.
Print Assumptions C97_nlls_real_start_refuted.

(** ScaledQrLs on a complex matrix with independent columns: right for every right-hand side exactly
    when the [q] it gets from numpy is real. *)
Theorem C97_scaled_qr : forall (F : numClosedFieldType) m n (A : 'M[F]_(m, n)) S q r,
  row_free (herm A) -> cscales A S -> is_cqr (A *m diag_mx S) q r ->
  (forall B, cminimises (caffine A (- B)) (\col_i (S 0 i * (hpinv r *m (q^T *m B)) i 0))) <->
  (forall i j, q i j \is Num.real).
Proof.
move=> F m n A S q r HA HS [E Hq _]; rewrite -realP.
rewrite -(qr_core (geq_minr m n) (scales_unit HS) HA E Hq).
by split=> H B; move: (H B); rewrite scaleE.
Qed.
Print Assumptions C97_scaled_qr.

(** So it need not solve even a consistent system: for the column (1, i/2) and B = A y it always
    returns something, and never y. *)
Theorem C97_scaled_qr_refuted : forall (F : numClosedFieldType), exists (A : 'M[F]_(2, 1)),
  row_free (herm A) /\
  forall y : 'cV[F]_1, y <> 0 ->
    (exists x, cScaledQrLs A (A *m y) x) /\
    forall x, cScaledQrLs A (A *m y) x -> x <> y /\ ~ cminimises (caffine A (- (A *m y))) x.
Proof.
move=> F; pose A : 'M[F]_(2, 1) := \col_i (if i == 0 then 1 else 'i / 2%:R); exists A.
have n2 : (2%:R : F) != 0 by rewrite pnatr_eq0.
have n3 : (3%:R : F) != 0 by rewrite pnatr_eq0.
have n4 : (4%:R : F) != 0 by rewrite pnatr_eq0.
have n5 : (5%:R : F) != 0 by rewrite pnatr_eq0.
have E4 : (2%:R : F) ^+ 2 = 4%:R by rewrite -natrX.
have sumA : \sum_i A i 0 * A i 0 = 3%:R / 4%:R.
  rewrite big_ord_recl big_ord1 !mxE /= mulr1 -expr2 expr_div_n sqrCi E4.
  by rewrite -{1}(divff n4) -mulrDl -{1}(@natrB _ 4 1).
have sumN : \sum_i `|A i 0| ^+ 2 = 5%:R / 4%:R.
  rewrite big_ord_recl big_ord1 !mxE /= normr1 expr1n normrM normCi mul1r normfV normr_nat exprVn E4.
  by rewrite -{1}(divff n4) -[X in _ + X]mul1r -mulrDl -(@natrD _ 4 1).
have HA : row_free (herm A).
  rewrite /row_free rank_herm eqn_leq rank_leq_col lt0n mxrank_eq0; apply/eqP=> /matrixP/(_ 0 0).
  by rewrite !mxE /= => /eqP; rewrite oner_eq0.
split=> // y Hy; split.
  pose s := sqrtC (3%:R / 4%:R : F); pose c := sqrtC (5%:R / 4%:R : F).
  have Es : s ^+ 2 = 3%:R / 4%:R by rewrite sqrtCK.
  have Ec : c ^+ 2 = 5%:R / 4%:R by rewrite sqrtCK.
  have Hc : c != 0 by rewrite sqrtC_eq0 mulf_neq0 ?invr_neq0.
  have Hcr : c^* = c by apply/CrealP/ger0_real; rewrite sqrtC_ge0 divr_ge0 ?ler0n.
  eexists; exists (const_mx (1 / s)), (\matrix_(i, j) (A i 0 / c)), (const_mx (c / s)); split; last reflexivity.
    move=> j; rewrite (ord1 j) sumA; split; first by rewrite mulf_neq0 ?invr_neq0.
    by exists s; rewrite mxE.
  split.
  - apply/matrixP=> i j; rewrite (ord1 j) mul_mx_diag !mxE big_ord1 !mxE mulrA mulfVK // mul1r.
    by [].
  - apply/matrixP=> i j; rewrite !mxE.
    have -> : (i == j) by apply/eqP/val_inj; case: i j => [[|i] Hi] [[|j] Hj].
    rewrite mulr1n (eq_bigr (fun i0 => `|A i0 0| ^+ 2 / c ^+ 2)).
      by rewrite -mulr_suml sumN Ec divff // mulf_neq0 ?invr_neq0.
    move=> i0 _; rewrite hermE !mxE -[RHS]/(_ / _) normCKC rmorphM fmorphV Hcr expr2 invfM.
    by rewrite mulrACA.
  - by case=> [[|i] Hi] [[|j] Hj].
move=> x [S [q [r [HS [E Hq _] Ex]]]].
have [_ [s [Es ES]]] := HS 0.
rewrite sumA in Es.
have Hs0 : s != 0 by apply/eqP=> E0; move: Es; rewrite E0 expr0n => /esym/eqP; rewrite mulf_eq0 invr_eq0 (negbTE n3) (negbTE n4).
change (minn 2 1) with 1%N in q, r, E, Hq, Ex.
set t := r 0 0.
have Eq i : A i 0 * (1 / s) = q i 0 * t.
  by move/matrixP/(_ i 0): E; rewrite mul_mx_diag !mxE big_ord1 ES.
have Et : (\sum_i q i 0 * q i 0) * t ^+ 2 = 1.
  rewrite mulr_suml (eq_bigr (fun i => A i 0 * A i 0 * (1 / s) ^+ 2)).
    by rewrite -mulr_suml sumA expr_div_n expr1n -Es mul1r divff // expf_neq0.
  by move=> i _; rewrite expr2 mulrACA -!Eq mulrACA -expr2.
have En : `|t| ^+ 2 = 5%:R / 3%:R.
  have Hq1 : \sum_i `|q i 0| ^+ 2 = 1.
    move/matrixP/(_ 0 0): Hq; rewrite !mxE eqxx => E1; apply: etrans E1.
    by apply: eq_bigr => i _; rewrite hermE normCKC.
  have -> : `|t| ^+ 2 = \sum_i `|A i 0| ^+ 2 * `|1 / s| ^+ 2.
    rewrite -[LHS]mul1r -{1}Hq1 mulr_suml; apply: eq_bigr => i _.
    by rewrite -exprMn -normrM -Eq normrM exprMn.
  rewrite -mulr_suml sumN -normrX expr_div_n expr1n Es normrM normr1 mul1r normfV ger0_norm ?divr_ge0 ?ler0n //.
  by rewrite invf_div mulrA mulfVK.
have Ht0 : t != 0.
  by apply/eqP=> E0; move: Et; rewrite E0 expr0n mulr0 => /esym/eqP; rewrite oner_eq0.
have Hr : r \in unitmx by rewrite unitmxE unitfE det_mx11.
have Hxy : x 0 0 = (\sum_i q i 0 * q i 0) * y 0 0.
  rewrite Ex mxE (hpinvV Hr) ES.
  have HV : invmx r 0 0 = t^-1.
    have := mulVmx Hr => /matrixP/(_ 0 0); rewrite !mxE big_ord1 eqxx => HV.
    by apply: (mulIf Ht0); rewrite HV mulVf.
  rewrite mxE big_ord1 HV mxE.
  have -> : \sum_j (q^T) 0 j * (A *m y) j 0 = (\sum_i q i 0 * q i 0) * (t * s * y 0 0).
    rewrite mulr_suml; apply: eq_bigr => i _; rewrite mxE mxE big_ord1.
    have -> : A i 0 = q i 0 * t * s by rewrite -Eq mul1r mulfVK.
    by rewrite !mulrA.
  rewrite [t^-1 * _]mulrCA [1 / s * _]mulrCA; congr (_ * _).
  by rewrite -[t * s * _]mulrA (mulKf Ht0) mul1r (mulKf Hs0).
have Hne : x <> y.
  move=> Exy; move: Hxy; rewrite Exy => Hxy.
  have Hy0 : y 0 0 != 0 by apply/eqP=> E0; apply: Hy; apply/matrixP=> i j; rewrite !ord1 E0 mxE.
  have Eq1 : \sum_i q i 0 * q i 0 = 1 by apply: (mulIf Hy0); rewrite mul1r -Hxy.
  move: Et; rewrite Eq1 mul1r => Et.
  move: En; rewrite -normrX Et normr1 => /(congr1 (fun z => z * 3%:R)); rewrite mulfVK // mul1r => /eqP.
  by rewrite eqr_nat.
split=> // Hm; apply: Hne.
have H0 : cminimises (caffine A (- (A *m y))) y.
  by move=> z; rewrite /caffine subrr cnorm20 cnorm2_ge0.
have H1 := minimisers_differ H0 Hm.
have /matrixP/(_ 0 0) := H1; rewrite !mxE big_ord1 !mxE /= mul1r => /eqP; rewrite subr_eq0 => /eqP H2.
by apply/matrixP=> i j; rewrite !ord1.
Qed.
Print Assumptions C97_scaled_qr_refuted.

(** A case: one unknown, two equations, i x = 1 and x = -i; the solution is -i, LS finds it. *)
Example C97_case : forall (F : numClosedFieldType),
  let A : 'M[F]_(2, 1) := \col_i (if i == 0 then 'i else 1) in
  let b : 'cV[F]_2 := \col_i (if i == 0 then -1 else 'i) in
  let res := fun l : seq (cvalue F unit 1) => if l is CUnk x :: _ then caffine A b x else 0 in
  let jac := fun (_ : seq (cvalue F unit 1) -> 'cV[F]_2) (_ : seq (cvalue F unit 1)) => A in
  cLS jac false Float Complex (CUnk 0) res [::] [::] (Some (Complex, jac res)) Pinv false
    = Some (Complex, CUnk (const_mx (- 'i)), [::]).
Proof.
move=> F A b res jac.
have HA : row_free (herm A).
  rewrite /row_free rank_herm eqn_leq rank_leq_col lt0n mxrank_eq0; apply/eqP=> /matrixP/(_ 1 0).
  by rewrite !mxE /= => /eqP; rewrite oner_eq0.
have Hx : hpinv A *m - b = const_mx (- 'i).
  have -> : - b = A *m const_mx (- 'i).
    apply/colP=> i; rewrite !mxE big_ord1 !mxE; case: (i == 0); first by rewrite mulrN -expr2 sqrCi.
    by rewrite mul1r.
  by rewrite mulmxA (pinv_left HA) mul1mx.
rewrite -Hx /cLS /LS /ls_closure /= /c_pinv_dot /caffine /jac mulmx0 !add0r.
by [].
Qed.
