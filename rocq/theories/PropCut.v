(** C104: LS and NLLS whatever the singular values of the Jacobian. *)
From Coq Require Import ZArith Lia Reals Lra.
From Coquelicot Require Import Coquelicot.
From mathcomp Require Import all_ssreflect all_algebra.
From Verif Require Import Base ModelPe SpecPe ProofPe ModelSolve SpecSolve ProofSolve ModelPinv SpecPinv ProofPinv
  ModelAffine SpecAffine ProofAffine PropAffine ModelCut SpecCut ProofCut.
From Verif Require Import Numbers ModelBFPy SpecBasis ModelELM SpecELM ModelUtfc SpecUtfc ProofUtfc ProofTab ProofIndep SpecColl ProofColl ProofRecover
  RealStruct SpecRecover PropRecover ModelOde SpecOde ProofOde PropOde ModelOdeAny SpecOdeAny ProofOdeAny PropOdeAny.
Set Implicit Arguments.
Unset Strict Implicit.
Unset Printing Implicit Defensive.
Import GRing.Theory Num.Theory Order.TotalTheory Order.POrderTheory.
Local Open Scope ring_scope.

(** the factor a method uses: its own default *)
Definition factor {F : Type} (tau_p tau_l : F) (s : method_) : F := match s with Lstsq => tau_l | _ => tau_p end.

Section Values.
Variables (F : realFieldType) (Ar : Type) (m n : nat) (decomp : 'M[F]_(m, n) -> svd F m n) (tau_p tau_l : F).
Notation value := (@value F Ar n).
Variables (jac : (seq value -> 'cV[F]_m) -> seq value -> 'M[F]_(m, n)) (res : seq value -> 'cV[F]_m) (args : seq value).
Variables (A : 'M[F]_(m, n)) (b : 'cV[F]_m) (J : option (seq value -> 'M[F]_(m, n))) (s : method_).
Hypothesis jac_ok : differentiates jac.
Hypothesis res_ok : res_is res args A b.
Hypothesis J_ok : user_jac J args A.
Hypothesis Hs : valid_method s.
Hypothesis HA : svd_of A (decomp A).
Hypothesis Hp : 0 <= tau_p.
Hypothesis Hl : 0 <= tau_l.
Local Notation tau := (factor tau_p tau_l s).
Local Notation K := (keepm (d := decomp A) s tau).
Local Notation X := (Xc K).
Definition solver : 'M[F]_(m, n) -> 'cV[F]_m -> 'cV[F]_n :=
  match s with Lstsq => cut_lstsq decomp tau_l | _ => cut_pinv_dot decomp tau_p end.
Lemma tau_ge0 : 0 <= tau. Proof. by rewrite /factor; case: (s). Qed.
Lemma solver_valid : solve_fun (cut_pinv_dot decomp tau_p) (cut_lstsq decomp tau_l) s = Some solver.
Proof. by move: Hs; rewrite /solver; case: (s). Qed.
Lemma solverE r : solver A r = X *m r.
Proof. by move: Hs; rewrite /solver /factor; case: (s). Qed.
Lemma cls_value z consts timer : ascending consts ->
  List.Forall (fun k => Peano.le 1 k /\ Peano.le k (length args)) consts ->
  cutLS decomp tau_p tau_l jac (Unk z) res args consts J s timer = Some (Unk (X *m - b), List.rev consts).
Proof.
move=> Ha Hb; apply: ls_spec solver_valid Ha Hb _ => //=.
rewrite /ls_closure (jacE jac_ok res_ok J_ok) solverE res_ok add0r; do 3 f_equal.
by rewrite /affine mulmx0 add0r.
Qed.
Notation upd := (the_upd jac solver res J args).
Lemma cupdE x : upd (Unk x) = X *m affine A b x.
Proof. by rewrite /the_upd /nlls_closure (jacE jac_ok res_ok J_ok) res_ok solverE. Qed.
Definition cstar (x : 'cV[F]_n) := x - X *m affine A b x.
Lemma cstar_res x : affine A b (cstar x) = affine A (affine A b x) (X *m - affine A b x).
Proof. by rewrite /cstar -mulmxN affine_shift. Qed.
Lemma nz j : K j -> sv_s (decomp A) 0 j != 0. Proof. exact: (keep_nz HA tau_ge0). Qed.
Lemma cstar_upd x : X *m affine A b (cstar x) = 0.
Proof. by rewrite cstar_res /affine mulmxDr mulmxA mulmxA (XAX HA nz) mulmxN addrC subrr. Qed.
Lemma citerate k x : iterate (@v_subt F Ar n) upd k.+1 (Unk x) = Unk (cstar x).
Proof.
elim: k => [|k IH]; first by rewrite /iterate cupdE.
have -> : iterate (@v_subt F Ar n) upd k.+2 (Unk x) = let y := iterate (@v_subt F Ar n) upd k.+1 (Unk x) in v_subt y (upd y) by [].
by rewrite IH /= cupdE cstar_upd subr0.
Qed.
Lemma cstop_two x d0 tol maxIter : 0 <= tol ->
  stops (@v_subt F Ar n) upd (fun x => res (x :: args)) (@v_maxabs F m) (@v_maxabs F n) (@v_gt F) tol maxIter d0 (Unk x) 2.
Proof.
move=> Ht; right; right; rewrite /last_step citerate cupdE cstar_upd maxabs0 /v_gt; apply/negbTE.
by rewrite -leNgt.
Qed.
Lemma cnlls_value x0 consts timer printOut cond tol maxIter fuel : (0 < n)%N -> ascending consts ->
  List.Forall (fun k => Peano.le 1 k /\ Peano.le k (length args)) consts ->
  0 <= tol -> tol < 1 -> Z.le 1 maxIter -> Z.le maxIter (Z.of_nat fuel) -> tol < v_maxabs (affine A b x0) ->
  exists k out, fst (cutNLLS decomp tau_p tau_l jac fuel (Unk x0) res args consts J cond None tol maxIter s timer printOut)
    = NReturns (NResult (Unk (cstar x0)) (Z.of_nat k) out) /\ (0 < k <= 2)%N.
Proof.
move=> Hn0 Ha Hb Ht Ht1 HM Hf Hr; have H1 : Peano.le 1 fuel by lia.
have [k [[Hk Hn] E]] := @nlls_spec _ _ _ _ _ (cut_pinv_dot decomp tau_p) (cut_lstsq decomp tau_l) (@v_sub F Ar n) (@v_ones F Ar n)
  (@v_maxabs F m) (@v_maxabs F n) (@v_gt F) jac fuel (Unk x0) res args consts J cond tol maxIter s timer printOut _ (@v_subt F Ar n)
  solver_valid (fun _ _ => erefl) Ha Hb Hf H1.
have Hk2 : (k <= 2)%N.
  rewrite leqNgt; apply/negP=> Hlt; have H2 := Hn 2%N (ssrnat.ltP Hlt); case: H2; exact: cstop_two.
case: k Hk Hn E Hk2 => [|k] Hk Hn E Hk2.
  exfalso; case: Hk => [|[|]] /=.
  - by rewrite res_ok /v_gt Hr.
  - by move=> HM'; lia.
  - by rewrite /v_ones maxabs1 // /v_gt Ht1.
by exists k.+1; eexists; split; [rewrite /cutNLLS E citerate; reflexivity|].
Qed.
(** what the answer is worth *)
Lemma cut_facts (a : 'cV[F]_m) :
  (forall B, truncated s tau (decomp A) B -> minimises (affine B a) (X *m - a) /\ shortest (affine B a) (X *m - a)) /\
  (well_conditioned s tau (decomp A) -> minimises (affine A a) (X *m - a) /\ shortest (affine A a) (X *m - a)) /\
  (forall c, (forall j, sv_s (decomp A) 0 j <= c) -> forall y,
    (forall theta, 0 < theta ->
      norm2 (affine A a (X *m - a)) <= (1 + theta) * norm2 (affine A a y) + (1 + theta^-1) * ((tau * c) ^+ 2 * norm2 y)) /\
    (affine A a y = 0 -> norm2 (affine A a (X *m - a)) <= (tau * c) ^+ 2 * norm2 y)).
Proof.
have E := Xc_pinv HA nz.
split; first by move=> B /(truncatedP HA) ->; rewrite E; split; [exact: pinv_minimises|exact: pinv_shortest].
split.
  move=> /(wellP HA) /(Bc_full HA) EB; move: E; rewrite EB => ->.
  by split; [exact: pinv_minimises|exact: pinv_shortest].
move=> c Hc y; have He j := @drop_le _ _ _ _ _ HA s tau c j tau_ge0 Hc.
by split=> [theta Ht|Hy]; [exact: (cut_bound HA nz He)|exact: (cut_exact HA nz He)].
Qed.
End Values.

(** ** C104 *)
(** LS returns the shortest least-squares solution of the problem without the singular values it
    ignores; that is the one of the problem itself if only zero is ignored; otherwise the residual is
    that of any unknowns at most, up to their size times the factor and the largest singular value. *)
Theorem C104_ls_partial : forall (F : realFieldType) (Ar : Type) m n (decomp : 'M[F]_(m, n) -> svd F m n) (tau_p tau_l : F)
    (jac : (seq (value F Ar n) -> 'cV[F]_m) -> seq (value F Ar n) -> 'M[F]_(m, n))
    (res : seq (value F Ar n) -> 'cV[F]_m) (args : seq (value F Ar n)) (A : 'M[F]_(m, n)) b J z consts s timer,
  differentiates jac -> res_is res args A b -> user_jac J args A -> valid_method s ->
  svd_of A (decomp A) -> 0 <= tau_p -> 0 <= tau_l ->
  ascending consts -> List.Forall (fun k => Peano.le 1 k /\ Peano.le k (length args)) consts ->
  let tau := factor tau_p tau_l s in
  exists x, cutLS decomp tau_p tau_l jac (Unk z) res args consts J s timer = Some (Unk x, List.rev consts) /\
    (forall B, truncated s tau (decomp A) B -> minimises (affine B b) x /\ shortest (affine B b) x) /\
    (well_conditioned s tau (decomp A) -> minimises (affine A b) x /\ shortest (affine A b) x) /\
    (forall c, (forall j, sv_s (decomp A) 0 j <= c) -> forall y,
      (forall theta, 0 < theta ->
        norm2 (affine A b x) <= (1 + theta) * norm2 (affine A b y) + (1 + theta^-1) * ((tau * c) ^+ 2 * norm2 y)) /\
      (affine A b y = 0 -> norm2 (affine A b x) <= (tau * c) ^+ 2 * norm2 y)).
Proof.
move=> F Ar m n decomp tau_p tau_l jac res args A b J z consts s timer jac_ok res_ok J_ok Hs HA Hp Hl Ha Hb tau.
eexists; split; first exact: (cls_value _ _ _ jac_ok res_ok J_ok Hs).
exact: cut_facts.
Qed.
Print Assumptions C104_ls_partial.

(** NLLS, started where the residual is above the tolerance, does the same from its start, in at most
    two iterations. *)
Theorem C104_nlls_partial : forall (F : realFieldType) (Ar : Type) m n (decomp : 'M[F]_(m, n) -> svd F m n) (tau_p tau_l : F)
    (jac : (seq (value F Ar n) -> 'cV[F]_m) -> seq (value F Ar n) -> 'M[F]_(m, n))
    (res : seq (value F Ar n) -> 'cV[F]_m) (args : seq (value F Ar n)) (A : 'M[F]_(m, n)) b J x0 consts s timer printOut cond tol maxIter fuel,
  differentiates jac -> res_is res args A b -> user_jac J args A -> valid_method s ->
  svd_of A (decomp A) -> 0 <= tau_p -> 0 <= tau_l -> (0 < n)%N ->
  ascending consts -> List.Forall (fun k => Peano.le 1 k /\ Peano.le k (length args)) consts ->
  0 <= tol -> tol < 1 -> Z.le 1 maxIter -> Z.le maxIter (Z.of_nat fuel) -> tol < v_maxabs (affine A b x0) ->
  let tau := factor tau_p tau_l s in
  exists x k out, fst (cutNLLS decomp tau_p tau_l jac fuel (Unk x0) res args consts J cond None tol maxIter s timer printOut)
      = NReturns (NResult (Unk x) (Z.of_nat k) out) /\ (0 < k <= 2)%N /\
    (well_conditioned s tau (decomp A) -> minimises (affine A b) x /\
       forall y, minimises (affine A b) y -> norm2 (y - x0) <= norm2 (x - x0) -> y = x) /\
    (forall c, (forall j, sv_s (decomp A) 0 j <= c) -> forall y,
      (forall theta, 0 < theta ->
        norm2 (affine A b x) <= (1 + theta) * norm2 (affine A b y) + (1 + theta^-1) * ((tau * c) ^+ 2 * norm2 (y - x0))) /\
      (affine A b y = 0 -> norm2 (affine A b x) <= (tau * c) ^+ 2 * norm2 (y - x0))).
Proof.
move=> F Ar m n decomp tau_p tau_l jac res args A b J x0 consts s timer printOut cond tol maxIter fuel
  jac_ok res_ok J_ok Hs HA Hp Hl Hn Ha Hb Ht Ht1 HM Hf Hr tau.
have [k [out [E Hk]]] := cnlls_value jac_ok res_ok J_ok Hs HA Hp Hl timer printOut cond Hn Ha Hb Ht Ht1 HM Hf Hr.
exists (cstar decomp tau_p tau_l A b s x0), k, out; split=> //; split=> //.
have [_ [H2 H3]] := cut_facts s HA Hp Hl (affine A b x0).
have EX : cstar decomp tau_p tau_l A b s x0 - x0 = Xc (keepm (d := decomp A) s tau) *m - affine A b x0.
  by rewrite /cstar addrAC subrr add0r mulmxN.
have Esh y : affine A b y = affine A (affine A b x0) (y - x0) by rewrite -affine_shift addrC subrK.
split.
  move=> /H2 [Hm Hsh]; split; first by move=> y; rewrite (Esh (cstar _ _ _ _ _ _ _)) (Esh y) EX; exact: Hm.
  move=> y Hy Hny; apply: (addIr (- x0)); rewrite EX; apply: Hsh; last by rewrite -EX.
  by move=> w; have := Hy (x0 + w); rewrite -Esh affine_shift.
move=> c Hc y; have [H4 H5] := H3 c Hc (y - x0).
split=> [theta Hth|Hy]; rewrite cstar_res; first by rewrite (Esh y); exact: H4.
by apply: H5; rewrite -Esh.
Qed.
Print Assumptions C104_nlls_partial.

(** The scripts of C102: the conditions hold exactly all the same, and the equation is fitted as well as
    by any other combination of the same functions that meets them, up to the size of its coefficients
    times the factor and the largest singular value. *)
Theorem C104_script_partial : forall (Ar : Type) jvp be bs N nC l deg x0 xf w b u cs phi co q E,
  scriptF jvp be bs N nC l deg x0 xf w b u cs phi E -> Peano.le (List.length co) (S E) ->
  let n := Nat.sub (S deg) (List.length l) in
  forall (decomp : 'M[R]_(N, n) -> svd R_realFieldType N n) (tau_p tau_l : R)
    (jac : (seq (value R_realFieldType Ar n) -> 'cV[R]_N) -> seq (value R_realFieldType Ar n) -> 'M[R]_(N, n))
    (res : seq (value R_realFieldType Ar n) -> 'cV[R]_N) args J z consts s timer,
  differentiates jac -> runs_scriptF jvp u cs phi co q args res -> right_jac J args res -> valid_method s ->
  let d := decomp (jac res (Unk 0 :: args)) in
  svd_of (jac res (Unk 0 :: args)) d -> 0 <= tau_p -> 0 <= tau_l ->
  ascending consts -> List.Forall (fun k => Peano.le 1 k /\ Peano.le k (length args)) consts ->
  let tau := factor tau_p tau_l s in
  exists xi c y, cutLS decomp tau_p tau_l jac (Unk z) res args consts J s timer = Some (Unk xi, c) /\
    curveF jvp u cs phi E xi y /\ smoothF y /\ (forall k, List.In k cs -> meets y k) /\
    (forall c, (forall j, sv_s d 0 j <= c) -> forall (xp : 'cV[R]_n) p, curveF jvp u cs phi E xp p ->
      (forall theta : R, 0 < theta -> misfitF co q y (u_x u) <=
         (1 + theta) * misfitF co q p (u_x u) + (1 + theta^-1) * ((tau * c) ^+ 2 * norm2 (xp : 'cV[R_realFieldType]_n))) /\
      ((forall t, List.In t (u_x u) -> odeF co p t = q t) -> misfitF co q y (u_x u) <= (tau * c) ^+ 2 * norm2 (xp : 'cV[R_realFieldType]_n))).
Proof.
move=> Ar jvp be bs N nC l deg x0 xf w b u cs phi co q E HS Hco n decomp tau_p tau_l jac res args J z consts s timer
  Hjac Hrun HJ Hs d Hd Hp Hl Ha Hc tau.
have [A [c [Hres [Hsz [_ [H1 H2]]]]]] := @scriptF_facts Ar _ _ _ _ _ _ _ _ _ _ _ _ _ _ co q _ HS Hco.
have Hr := Hres args res Hrun.
have EA : jac res (Unk 0 :: args) = A := Hjac _ _ _ _ Hr 0.
move: Hd; rewrite /d EA => Hd {d}.
have [xi [EE [_ [_ Hb]]]] := C104_ls_partial z timer Hjac Hr (user_jac_of Hr HJ) Hs Hd Hp Hl Ha Hc.
have [y [Hcu [Hsm [_ [Hm _]]]]] := H1 xi.
exists xi, (List.rev consts), y; split=> //; split=> //; split=> //; split=> //.
have mis xj w' : curveF jvp u cs phi E xj w' -> norm2 (affine A c xj) = misfitF co q w' (u_x u).
  move=> Hz; have [yj [Hj' [_ [_ [_ Hi]]]]] := H1 xj.
  by apply: norm2_misfitF => // i; rewrite Hi /odeF (odeF_ext w' _ _ _ (curveF_ext Hz Hj')).
move=> c' Hc' xp p Hxp; have [H3 H4] := Hb c' Hc' xp.
rewrite -(mis _ _ Hcu) -(mis _ _ Hxp); split=> [theta|Hex]; first exact: H3.
apply: H4; apply: norm2_eq0; rewrite (mis _ _ Hxp).
by apply/misfitF_0.
Qed.
Print Assumptions C104_script_partial.

(** ** What is ignored can be needed *)
Section Refuted.
Variables (F : realFieldType) (t : F).
Hypothesis Ht : 0 < t.
Hypothesis Ht1 : t <= 1.
(** [[1, 0], [0, t]] *)
Definition dia : 'rV[F]_2 := \row_j (if j == 0 then 1 else t).
Definition ddec : svd F 2 2 := Svd (sv_k := 2) 1%:M dia 1%:M.
Lemma ddec_ok : svd_of (diag_mx dia) ddec.
Proof.
split=> /=.
- by rewrite mul1mx trmx1 mulmx1.
- by rewrite trmx1 mul1mx.
- by rewrite trmx1 mul1mx.
- by move=> j; rewrite mxE; case: ifP => _; [exact: ler01|exact: ltW].
move=> i j Hij; rewrite !mxE; case: eqP => [Ej|Nj]; case: eqP => [Ei|Ni] //.
by exfalso; apply: Ni; apply: val_inj => /=; move: Hij; rewrite Ej /= leqn0 => /eqP.
Qed.
Lemma dfirst : sv_first ddec = 1.
Proof. by rewrite /sv_first enum_ordSl /= mxE. Qed.
End Refuted.

(** Whatever the factors between 0 and 1, there are two equations in two unknowns with one exact
    solution that neither LS nor NLLS finds: both leave a residual that is not zero. *)
Theorem C104_refuted : forall (F : realFieldType) (Ar : Type) (tau_p tau_l : F),
  0 < tau_p -> tau_p < 1 -> 0 < tau_l -> tau_l < 1 ->
  exists (A : 'M[F]_2) (b y : 'cV[F]_2) (d : svd F 2 2), svd_of A d /\ A \in unitmx /\ affine A b y = 0 /\
    forall (jac : (seq (value F Ar 2) -> 'cV[F]_2) -> seq (value F Ar 2) -> 'M[F]_2) (res : seq (value F Ar 2) -> 'cV[F]_2) z s timer,
    differentiates jac -> res_is res [::] A b -> valid_method s ->
    (exists x c, cutLS (fun _ => d) tau_p tau_l jac (Unk z) res [::] [::] None s timer = Some (Unk x, c) /\ affine A b x <> 0) /\
    (forall fuel tol maxIter printOut cond, 0 <= tol -> tol < 1 -> Z.le 1 maxIter -> Z.le maxIter (Z.of_nat fuel) -> tol < v_maxabs b ->
     exists x k out, fst (cutNLLS (fun _ => d) tau_p tau_l jac fuel (Unk 0) res [::] [::] None cond None tol maxIter s timer printOut)
       = NReturns (NResult (Unk x) (Z.of_nat k) out) /\ affine A b x <> 0).
Proof.
move=> F Ar tau_p tau_l Hp Hp1 Hl Hl1.
pose t := Num.min tau_p tau_l / 2%:R.
have Ht : 0 < t by rewrite divr_gt0 ?ltr0n // lt_minr Hp Hl.
have h2 x : 0 < x -> x / 2%:R < x :> F by move=> Hx; rewrite ltr_pdivr_mulr ?ltr0n // mulr_natr mulr2n ltr_addl.
have Hmin : 0 < Num.min tau_p tau_l by rewrite lt_minr Hp Hl.
have Htm := h2 _ Hmin.
have Htp : t < tau_p by apply: lt_le_trans Htm _; rewrite le_minl lexx.
have Htl : t < tau_l by apply: lt_le_trans Htm _; rewrite le_minl lexx orbT.
have Ht1 : t <= 1 by apply: ltW; apply: lt_trans Htp Hp1.
pose b : 'cV[F]_2 := \col_i (if i == 0 then 0 else - (2%:R)).
pose y : 'cV[F]_2 := \col_i (if i == 0 then 0 else 2%:R / t).
pose A := diag_mx (dia t).
have HA : svd_of A (ddec t) := ddec_ok Ht Ht1.
have Hy : affine A b y = 0.
  apply/matrixP=> i j; rewrite /affine mxE mul_diag_mx !mxE; case: ifP => _; first by rewrite mulr0 addr0.
  by rewrite mulrCA divff ?gt_eqF // mulr1 subrr.
have HX s : valid_method s -> Xc (keepm (d := ddec t) s (factor tau_p tau_l s)) *m - b = 0.
  move=> Hs; rewrite /Xc /= mul1mx trmx1 mulmx1; apply/matrixP=> i j; rewrite mul_diag_mx !mxE.
  case Ei: (i == 0); first by rewrite oppr0 mulr0.
  have -> : keepm (d := ddec t) s (factor tau_p tau_l s) i = false; last by rewrite mul0r.
  case: s Hs => //= _; rewrite /keep_pinv /keep_lstsq dfirst mulr1 /= mxE Ei ?[0 < t]Ht /=.
    by apply/negbTE; rewrite -leNgt ltW.
  by apply/negbTE; rewrite -ltNge.
have Hb : b <> 0 by move=> /matrixP /(_ 1 0); rewrite !mxE /= => /eqP; rewrite oppr_eq0 pnatr_eq0.
exists A, b, y, (ddec t); split=> //; split.
  by rewrite unitmxE det_diag big_ord_recl big_ord1 !mxE /= mul1r unitfE gt_eqF.
split=> // jac res z s timer Hj Hr Hs.
have HJ : user_jac (Ar := Ar) None [::] A by [].
split.
  exists 0, [::]; split; last by rewrite /affine mulmx0 add0r.
  have := @cls_value F Ar 2 2 (fun _ => ddec t) tau_p tau_l jac res [::] A b None s Hj Hr HJ Hs z [::] timer ltac:(constructor) ltac:(constructor).
  by rewrite (HX _ Hs).
move=> fuel tol maxIter printOut cond H0 H1 H2 H3 H4.
have H4' : tol < v_maxabs (affine A b 0) by rewrite /affine mulmx0 add0r.
have [k [out [E _]]] := @cnlls_value F Ar 2 2 (fun _ => ddec t) tau_p tau_l jac res [::] A b None s Hj Hr HJ Hs HA (ltW Hp) (ltW Hl)
  0 [::] timer printOut cond tol maxIter fuel isT ltac:(constructor) ltac:(constructor) H0 H1 H2 H3 H4'.
have E0 : cstar (fun _ => ddec t) tau_p tau_l A b s 0 = 0.
  by rewrite /cstar sub0r /affine mulmx0 add0r -mulmxN; exact: (HX _ Hs).
rewrite E0 in E; exists 0, k, out; split=> //.
by rewrite /affine mulmx0 add0r.
Qed.
Print Assumptions C104_refuted.

(** x1 + 3 = 0, x2 / 2 - 1 = 0 with the factor 1/4: nothing is ignored, and LS solves it *)
Example C104_case : exists x c,
  let A := diag_mx (dia (2%:R^-1 : rat)) in let b := \col_i (if i == 0 then 3%:R else - 1) in
  cutLS (fun _ => ddec 2%:R^-1) 4%:R^-1 4%:R^-1 (@diff_jac _ _ 2 2) (Unk (Ar := unit) 0)
    (fun v => if v is Unk x :: _ then affine A b x else 0) [::] [::] None Pinv false = Some (Unk x, c) /\
  affine A b x = 0 /\ x 0 0 = - 3%:R /\ x 1 0 = 2%:R.
Proof.
pose A := diag_mx (dia (2%:R^-1 : rat)); pose b : 'cV[rat]_2 := \col_i (if i == 0 then 3%:R else - 1).
pose res := fun v : seq (value [realFieldType of rat] unit 2) => if v is Unk x :: _ then affine A b x else 0.
have Hr : res_is res [::] A b by [].
have HA : svd_of A (ddec 2%:R^-1) by apply: ddec_ok.
have [x [E [_ [Hw _]]]] := @C104_ls_partial _ unit 2 2 (fun _ => ddec 2%:R^-1) 4%:R^-1 4%:R^-1 (@diff_jac _ _ 2 2) res [::] A b
   None 0 [::] Pinv false (@diff_jac_ok _ _ _ _) Hr ltac:(by []) ltac:(by []) HA ltac:(by []) ltac:(by []) ltac:(constructor) ltac:(constructor).
have Wc : well_conditioned Pinv (4%:R^-1 : rat) (ddec 2%:R^-1).
  move=> j /(ignoredP HA) /=; rewrite /keep_pinv dfirst /= mxE.
  by case: ifP.
have [Hm _] := Hw Wc.
pose y : 'cV[rat]_2 := \col_i (if i == 0 then - 3%:R else 2%:R).
have Hy : affine A b y = 0.
  by apply/matrixP=> i j; rewrite /affine mxE mul_diag_mx !mxE; case: ifP.
have Hx : affine A b x = 0.
  by apply: norm2_eq0; apply: le_anti; rewrite norm2_ge0 andbT; have := Hm y; rewrite Hy norm20.
exists x, (List.rev [::]); split; first exact: E.
split=> //; move/matrixP: Hx => Hx.
split.
  by have := Hx 0 0; rewrite /affine mxE mul_diag_mx !mxE /= mul1r => /eqP; rewrite addr_eq0 => /eqP.
have := Hx 1 0; rewrite /affine mxE mul_diag_mx !mxE /= => /eqP; rewrite subr_eq0 => /eqP H.
by apply: (mulfI (_ : 2%:R^-1 != 0)) => //; rewrite H.
Qed.
