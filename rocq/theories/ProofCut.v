(** Proofs for C104. *)
From Coq Require Import ZArith Lia Ring.
From mathcomp Require Import all_ssreflect all_algebra.
From Verif Require Import Base ModelPe SpecPe ProofPe ModelSolve SpecSolve ProofSolve ModelPinv SpecPinv ProofPinv ModelAffine SpecAffine ProofAffine
  ModelCut SpecCut.
Set Implicit Arguments.
Unset Strict Implicit.
Unset Printing Implicit Defensive.
Import GRing.Theory Num.Theory Order.TotalTheory Order.POrderTheory.
Local Open Scope ring_scope.

Section Norm.
Variable F : realFieldType.
Lemma norm2_le n (v w : 'cV[F]_n) : (forall i, `|v i 0| <= `|w i 0|) -> norm2 v <= norm2 w.
Proof.
move=> H; apply: ler_sum => i _; rewrite -(real_normK (num_real (v i 0))) -(real_normK (num_real (w i 0))).
by rewrite ler_sqr ?nnegrE ?normr_ge0.
Qed.
Lemma norm2_iso m k (u : 'M[F]_(m, k)) (w : 'cV[F]_k) : u^T *m u = 1%:M -> norm2 (u *m w) = norm2 w.
Proof. by move=> Hu; rewrite !norm2E trmx_mul mulmxA -(mulmxA w^T) Hu mulmx1. Qed.
Lemma norm2_proj n (P : 'M[F]_n) (w : 'cV[F]_n) : P^T = P -> P *m P = P -> norm2 (P *m w) <= norm2 w.
Proof.
move=> Ht Hp; have -> : norm2 w = norm2 (P *m w) + norm2 (w - P *m w).
  rewrite -norm2D; first by rewrite addrC subrK.
  by rewrite trmx_mul Ht mulmxBr -!mulmxA [P *m (P *m w)]mulmxA Hp subrr.
by rewrite ler_addl norm2_ge0.
Qed.
Lemma norm2_tr n k (v : 'M[F]_(n, k)) (y : 'cV[F]_n) : v^T *m v = 1%:M -> norm2 (v^T *m y) <= norm2 y.
Proof.
move=> Hv; rewrite -(norm2_iso (v^T *m y) Hv) mulmxA; apply: norm2_proj; first by rewrite trmx_mul trmxK.
by rewrite mulmxA -(mulmxA v) Hv mulmx1.
Qed.
Definition f0 : F := 0.
Definition f1 : F := 1.
Definition fadd (x y : F) : F := x + y.
Definition fmul (x y : F) : F := x * y.
Definition fopp (x : F) : F := - x.
Definition fsub (x y : F) : F := fadd x (fopp y).
Lemma Frt : @ring_theory F f0 f1 fadd fmul fsub fopp eq.
Proof.
constructor; [exact: add0r|exact: addrC|exact: addrA|exact: mul1r|exact: mulrC|exact: mulrA|exact: mulrDl|by []|exact: subrr].
Qed.
Add Ring Fring : Frt.
Ltac fring :=
  rewrite ?expr2 ?exprS ?expr0 ?mulr_natl ?mulrSr ?mulr0n;
  match goal with |- @eq _ ?a ?b => change (@eq F a b) end;
  repeat match goal with
  | |- context [@GRing.add _ ?a ?b] => change (@GRing.add _ a b) with (fadd a b)
  | |- context [@GRing.mul _ ?a ?b] => change (@GRing.mul _ a b) with (fmul a b)
  | |- context [@GRing.opp _ ?a] => change (@GRing.opp _ a) with (fopp a)
  end;
  repeat match goal with
  | |- context [@GRing.zero ?z] => change (@GRing.zero z) with f0
  | |- context [@GRing.one ?z] => change (@GRing.one z) with f1
  end; ring.
Lemma norm2_sub n (p q : 'cV[F]_n) theta : 0 < theta -> norm2 (p - q) <= (1 + theta) * norm2 p + (1 + theta^-1) * norm2 q.
Proof.
move=> Ht; rewrite /norm2 !mulr_sumr -big_split; apply: ler_sum => i _ /=; rewrite !mxE.
set a := p i 0; set b := q i 0; rewrite -subr_ge0.
have Ht0 : theta != 0 by rewrite gt_eqF.
have -> : b = theta * (theta^-1 * b) by rewrite mulrA mulfV // mul1r.
set c := theta^-1 * b.
have -> : (1 + theta^-1) * (theta * c) ^+ 2 = (theta * c) ^+ 2 + theta * c ^+ 2.
  by rewrite mulrDl mul1r; congr (_ + _); rewrite exprMn mulrA [theta ^+ 2]expr2 [theta^-1 * _]mulrA mulVf // mul1r.
have -> : (1 + theta) * a ^+ 2 + ((theta * c) ^+ 2 + theta * c ^+ 2) - (a - theta * c) ^+ 2 = theta * (a + c) ^+ 2 by fring.
by apply: mulr_ge0; [apply: ltW|apply: sqr_ge0].
Qed.
End Norm.

Section Trunc.
Variables (F : realFieldType) (m n : nat) (A : 'M[F]_(m, n)) (d : svd F m n) (keep : 'I_(sv_k d) -> bool) (eps : F).
Hypothesis HA : svd_of A d.
Hypothesis Hk : forall j, keep j -> sv_s d 0 j != 0.
Hypothesis He : forall j, ~~ keep j -> sv_s d 0 j <= eps.
Local Notation u := (sv_u d).
Local Notation v := (sv_v d).
Local Notation s := (sv_s d).
Definition si : 'rV[F]_(sv_k d) := \row_j (if keep j then (s 0 j)^-1 else 0).
Definition st : 'rV[F]_(sv_k d) := \row_j (if keep j then s 0 j else 0).
Definition s1 : 'rV[F]_(sv_k d) := \row_j (if keep j then 1 else 0).
Definition Xc : 'M[F]_(n, m) := v *m diag_mx si *m u^T.
Definition Bc : 'M[F]_(m, n) := u *m diag_mx st *m v^T.
Lemma uv_mul p q (a : 'M[F]_(p, sv_k d)) (e f : 'rV[F]_(sv_k d)) (b : 'M[F]_(q, sv_k d)) k (c : 'M[F]_(k, sv_k d)) : c^T *m c = 1%:M ->
  (a *m diag_mx e *m c^T) *m (c *m diag_mx f *m b^T) = a *m diag_mx (\row_j (e 0 j * f 0 j)) *m b^T.
Proof. by move=> Hc; rewrite -!mulmxA (mulmxA c^T) Hc mul1mx (mulmxA (diag_mx e)) mulmx_diag. Qed.
Lemma AX : A *m Xc = u *m diag_mx s1 *m u^T.
Proof.
rewrite (svd_eq HA) /Xc (uv_mul _ _ _ _ (svd_v HA)); congr (_ *m diag_mx _ *m _).
by apply/rowP=> j; rewrite !mxE; case: ifP => Hj; rewrite ?mulr0 // mulfV // Hk.
Qed.
Lemma BX : Bc *m Xc = u *m diag_mx s1 *m u^T.
Proof.
rewrite /Bc /Xc (uv_mul _ _ _ _ (svd_v HA)); congr (_ *m diag_mx _ *m _).
by apply/rowP=> j; rewrite !mxE; case: ifP => Hj; rewrite ?mulr0 // mulfV // Hk.
Qed.
Lemma XB : Xc *m Bc = v *m diag_mx s1 *m v^T.
Proof.
rewrite /Bc /Xc (uv_mul _ _ _ _ (svd_u HA)); congr (_ *m diag_mx _ *m _).
by apply/rowP=> j; rewrite !mxE; case: ifP => Hj; rewrite ?mulr0 // mulVf // Hk.
Qed.
Lemma tr_udu k (a : 'M[F]_(k, sv_k d)) e : (a *m diag_mx e *m a^T)^T = a *m diag_mx e *m a^T.
Proof. by rewrite !trmx_mul trmxK tr_diag_mx mulmxA. Qed.
Lemma Xc_pinv : Xc = pinv Bc.
Proof.
apply: (penrose_unique (A := Bc)); last exact: pinv_penrose.
split.
- rewrite BX /Bc (uv_mul _ _ _ _ (svd_u HA)); congr (_ *m diag_mx _ *m _).
  by apply/rowP=> j; rewrite !mxE; case: ifP => _; rewrite ?mulr0 ?mul1r.
- rewrite XB /Xc (uv_mul _ _ _ _ (svd_v HA)); congr (_ *m diag_mx _ *m _).
  by apply/rowP=> j; rewrite !mxE; case: ifP => _; rewrite ?mulr0 ?mul1r.
- by rewrite BX tr_udu.
- by rewrite XB tr_udu.
Qed.
Lemma Bc_full : (forall j, ~~ keep j -> s 0 j = 0) -> Bc = A.
Proof.
move=> H; rewrite (svd_eq HA) /Bc; congr (_ *m diag_mx _ *m _).
by apply/rowP=> j; rewrite !mxE; case E: (keep j) => //; rewrite H // E.
Qed.
Lemma XAX : Xc *m A *m Xc = Xc.
Proof. by rewrite -mulmxA AX -BX Xc_pinv mulmxA; case: (pinv_penrose Bc). Qed.
Lemma XcB (b : 'cV[F]_m) : Bc *m (Xc *m b) = A *m (Xc *m b).
Proof. by rewrite [LHS]mulmxA [RHS]mulmxA BX AX. Qed.
Definition Kc : 'M[F]_m := u *m diag_mx s1 *m u^T.
Definition Qc : 'M[F]_m := 1%:M - Kc.
Lemma Kc_proj : Kc *m Kc = Kc.
Proof.
rewrite /Kc (uv_mul _ _ _ _ (svd_u HA)); congr (_ *m diag_mx _ *m _).
by apply/rowP=> j; rewrite !mxE; case: ifP => _; rewrite ?mulr0 ?mul1r.
Qed.
Lemma Qc_sym : Qc^T = Qc.
Proof. by rewrite /Qc linearB /= trmx1 [Kc^T]tr_udu. Qed.
Lemma Qc_proj : Qc *m Qc = Qc.
Proof. by rewrite /Qc mulmxBr mulmx1 mulmxBl mul1mx Kc_proj subrr subr0. Qed.
(** the residual of the answer *)
Lemma cut_res b y : affine A b (Xc *m - b) = Qc *m affine A b y - Qc *m (A *m y).
Proof. by rewrite -mulmxBr /affine addrAC subrr add0r mulmxA AX -/Kc mulmxN /Qc mulmxBl mul1mx addrC. Qed.
Lemma cut_part (y : 'cV[F]_n) : norm2 (Qc *m (A *m y)) <= eps ^+ 2 * norm2 y.
Proof.
pose sd : 'rV[F]_(sv_k d) := \row_j (if keep j then 0 else s 0 j).
have -> : Qc *m (A *m y) = u *m (diag_mx sd *m (v^T *m y)).
  have EK : Kc *m A = u *m diag_mx (\row_j (s1 0 j * s 0 j)) *m v^T by rewrite [in LHS](svd_eq HA) /Kc (uv_mul _ _ _ _ (svd_u HA)).
  have EQ : Qc *m A = u *m diag_mx sd *m v^T.
    rewrite /Qc mulmxBl mul1mx EK [in LHS](svd_eq HA) -mulmxBl -mulmxBr; congr (_ *m _ *m _).
    apply/matrixP=> i j; rewrite !mxE; case: eqP => [->|] /=; last by rewrite !mulr0n subr0.
    by rewrite !mulr1n; case: ifP => _; rewrite ?mul1r ?subrr ?mul0r ?subr0.
  by rewrite [LHS]mulmxA EQ -!mulmxA.
rewrite (norm2_iso _ (svd_u HA)).
apply: (@le_trans _ _ (norm2 (eps *: (v^T *m y)))).
  apply: norm2_le => i; rewrite mul_diag_mx !mxE !normrM; apply: ler_wpmul2r => //.
  case E: (keep i); first by rewrite normr0.
  by have := He (negbT E); have := svd_ge0 HA i; move=> H0 H1; rewrite !ger0_norm // (le_trans H0 H1).
have -> (w : 'cV[F]_(sv_k d)) : norm2 (eps *: w) = eps ^+ 2 * norm2 w.
  by rewrite /norm2 mulr_sumr; apply: eq_bigr => i _; rewrite mxE exprMn.
by apply: ler_wpmul2l; [apply: sqr_ge0|apply: norm2_tr; exact: (svd_v HA)].
Qed.
(** the answer, compared with any other unknowns *)
Lemma cut_bound b y theta : 0 < theta ->
  norm2 (affine A b (Xc *m - b)) <= (1 + theta) * norm2 (affine A b y) + (1 + theta^-1) * (eps ^+ 2 * norm2 y).
Proof.
move=> Ht; rewrite (cut_res _ y); apply: le_trans (norm2_sub _ _ Ht) _; apply: ler_add.
  by apply: ler_wpmul2l; [rewrite addr_ge0 ?ler01 ?ltW|apply: norm2_proj; [exact: Qc_sym|exact: Qc_proj]].
by apply: ler_wpmul2l; [rewrite addr_ge0 ?ler01 // invr_ge0 ltW|exact: cut_part].
Qed.
Lemma cut_exact b y : affine A b y = 0 -> norm2 (affine A b (Xc *m - b)) <= eps ^+ 2 * norm2 y.
Proof. by move=> Hy; rewrite (cut_res _ y) Hy mulmx0 add0r norm2N; exact: cut_part. Qed.
End Trunc.

(** ** what the two methods keep *)
Section Keep.
Variables (F : realFieldType) (m n : nat) (A : 'M[F]_(m, n)) (d : svd F m n).
Hypothesis HA : svd_of A d.
Lemma sv_firstP (j : 'I_(sv_k d)) : exists i, sv_first d = sv_s d 0 i /\ forall i', sv_s d 0 i' <= sv_s d 0 i.
Proof.
have Hk : (0 < sv_k d)%N := leq_ltn_trans (leq0n _) (ltn_ord j).
exists (Ordinal Hk); split; last by move=> i'; apply: (svd_desc HA).
rewrite /sv_first -nth0 (nth_map (Ordinal Hk)) ?size_enum_ord //; congr (sv_s d 0 _).
by apply: val_inj; rewrite /= nth_enum_ord.
Qed.
Lemma max_first i : (forall i', sv_s d 0 i' <= sv_s d 0 i) -> sv_s d 0 i = sv_first d.
Proof. by move=> H; have [i0 [-> H0]] := sv_firstP i; apply: le_anti; rewrite H H0. Qed.
Definition keepm (s : method_) (tau : F) : 'I_(sv_k d) -> bool :=
  match s with Lstsq => @keep_lstsq F m n tau d | _ => @keep_pinv F m n tau d end.
Lemma ignoredP s tau j : ignored s tau j <-> ~~ keepm s tau j.
Proof.
have Hp : (exists i, (forall i', sv_s d 0 i' <= sv_s d 0 i) /\ sv_s d 0 j <= tau * sv_s d 0 i) <-> ~~ keep_pinv tau j.
  rewrite /keep_pinv -leNgt; split=> [[i [/max_first -> H]] //|H].
  by have [i [E Hi]] := sv_firstP j; exists i; split=> //; rewrite -E.
case: s => //=.
rewrite /keep_lstsq negb_and -leNgt -ltNge; split.
  case=> [->|[i [/max_first -> ->]]]; last by rewrite orbT.
  by rewrite lexx.
case/orP=> [H|H].
  by left; apply: le_anti; rewrite H (svd_ge0 HA).
by right; have [i [E Hi]] := sv_firstP j; exists i; split=> //; rewrite -E.
Qed.
Lemma keep_nz s tau j : 0 <= tau -> keepm s tau j -> sv_s d 0 j != 0.
Proof.
move=> Ht; have [i [E Hi]] := sv_firstP j.
have Hp : keep_pinv tau j -> sv_s d 0 j != 0.
  rewrite /keep_pinv => H; apply/negP => /eqP E0; move: H; rewrite E0 ltNge => /negP; apply.
  by apply: mulr_ge0 => //; rewrite E; apply: (svd_ge0 HA).
case: s => //= /andP [H _]; by rewrite gt_eqF.
Qed.
Lemma drop_le s tau c j : 0 <= tau -> (forall j, sv_s d 0 j <= c) -> ~~ keepm s tau j -> sv_s d 0 j <= tau * c.
Proof.
move=> Ht Hc; have [i [E Hi]] := sv_firstP j.
have Hc' : tau * sv_first d <= tau * c by apply: ler_wpmul2l => //; rewrite E.
have Hp : ~~ keep_pinv tau j -> sv_s d 0 j <= tau * c by rewrite /keep_pinv -leNgt => H; apply: le_trans H Hc'.
have H0 : 0 <= tau * c by apply: mulr_ge0 => //; apply: le_trans (svd_ge0 HA j) (Hc j).
case: s => //=; rewrite /keep_lstsq negb_and -leNgt -ltNge => /orP [H|H]; first exact: le_trans H H0.
by apply: le_trans (ltW H) Hc'.
Qed.
Lemma truncatedP s tau B : truncated s tau d B -> B = Bc (keepm s tau).
Proof.
case=> t [-> Ht]; rewrite /Bc; congr (_ *m diag_mx _ *m _); apply/rowP=> j; rewrite !mxE.
case: (Ht j) => H1 H2; case E: (keepm s tau j).
  by apply: H2 => /ignoredP; rewrite E.
by apply: H1; apply/ignoredP; rewrite E.
Qed.
Lemma wellP s tau : well_conditioned s tau d -> forall j, ~~ keepm s tau j -> sv_s d 0 j = 0.
Proof. by move=> H j /ignoredP; exact: H. Qed.
End Keep.
