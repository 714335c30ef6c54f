From Coq Require Import ZArith Lia.
From mathcomp Require Import all_ssreflect all_algebra.
From Verif Require Import Base ModelPe SpecPe ProofPe ModelSolve SpecSolve ProofSolve ModelPinv SpecPinv ProofPinv ModelAffine SpecAffine ProofAffine SpecNewton.
Set Implicit Arguments.
Unset Strict Implicit.
Unset Printing Implicit Defensive.
Import GRing.Theory Num.Theory Order.POrderTheory.
Local Open Scope ring_scope.

Section Size.
Variable F : realFieldType.
Notation mx := (@v_maxabs F _).

Lemma foldr_max_ge0 (s : seq F) : 0 <= foldr Order.max 0 s.
Proof. by elim: s => //= a s IH; rewrite Order.TotalTheory.le_maxr IH orbT. Qed.
Lemma mx_ge0 k (v : 'cV[F]_k) : 0 <= mx v.
Proof. exact: foldr_max_ge0. Qed.
Lemma mx_entry k (v : 'cV[F]_k) : within v (mx v).
Proof.
move=> i; rewrite /v_maxabs; have : i \in enum 'I_k by rewrite mem_enum.
elim: (enum _) => //= j s IH; rewrite inE Order.TotalTheory.le_maxr => /orP[/eqP->|Hi]; first by rewrite lexx.
by rewrite (IH Hi) orbT.
Qed.
Lemma mx_le k (v : 'cV[F]_k) c : 0 <= c -> (mx v <= c) <-> within v c.
Proof.
move=> Hc; split=> [H i|H]; first exact: le_trans (mx_entry v i) H.
rewrite /v_maxabs; elim: (enum _) => //= j s IH; rewrite Order.TotalTheory.le_maxl IH andbT; exact: H.
Qed.
Lemma within_ge0 k (v : 'cV[F]_k) c : (0 < k)%N -> within v c -> 0 <= c.
Proof. by case: k v => // k v _ /(_ 0); apply: le_trans. Qed.
Lemma mx0 k (v : 'cV[F]_k) : mx v = 0 -> v = 0.
Proof.
move=> E; apply/colP=> i; rewrite mxE; apply/eqP; rewrite -normr_eq0 eq_le normr_ge0 andbT -E; exact: mx_entry.
Qed.
Lemma mxD k (u v : 'cV[F]_k) : mx (u + v) <= mx u + mx v.
Proof.
apply/mx_le; first by rewrite addr_ge0 ?mx_ge0.
by move=> i; rewrite mxE (le_trans (ler_norm_add _ _)) // ler_add ?mx_entry.
Qed.
Lemma mxN k (v : 'cV[F]_k) : mx (- v) = mx v.
Proof. by rewrite /v_maxabs; congr foldr; apply: eq_map => i; rewrite mxE normrN. Qed.
Lemma mxB k (u v : 'cV[F]_k) : mx (u - v) = mx (v - u).
Proof. by rewrite -mxN opprB. Qed.

Definition opn m n (A : 'M[F]_(m, n)) : F := \sum_i \sum_j `|A i j|.
Lemma opn_ge0 m n (A : 'M[F]_(m, n)) : 0 <= opn A.
Proof. by apply: sumr_ge0 => i _; apply: sumr_ge0. Qed.
Lemma opnP m n (A : 'M[F]_(m, n)) (v : 'cV[F]_n) : mx (A *m v) <= opn A * mx v.
Proof.
apply/mx_le; first by rewrite mulr_ge0 ?opn_ge0 ?mx_ge0.
move=> i; rewrite mxE (le_trans (ler_norm_sum _ _ _)) //.
have H : \sum_j `|A i j * v j 0| <= (\sum_j `|A i j|) * mx v.
  by rewrite mulr_suml; apply: ler_sum => j _; rewrite normrM ler_pmul // mx_entry.
apply: le_trans H _; apply: ler_pmul => //; first by apply: sumr_ge0.
  exact: mx_ge0.
rewrite /opn (bigD1 i) //= ler_addl; apply: sumr_ge0 => k _; exact: sumr_ge0.
Qed.
Lemma opn_le m n (A : 'M[F]_(m, n)) c : (forall i j, `|A i j| <= c) -> opn A <= (m * n)%:R * c.
Proof.
move=> H; apply: (@le_trans _ _ (\sum_(i < m) \sum_(j < n) c)); first by apply: ler_sum => i _; apply: ler_sum => j _.
rewrite (eq_bigr (fun _ => n%:R * c)); last by move=> i _; rewrite sumr_const card_ord mulr_natl.
by rewrite sumr_const card_ord -mulr_natl mulrA natrM.
Qed.
Lemma mx_norm2 k (v : 'cV[F]_k) : mx v ^+ 2 <= norm2 v.
Proof.
have H : forall i, `|v i 0| ^+ 2 <= norm2 v.
  move=> i; rewrite /norm2 (bigD1 i) //= -normrX ger0_norm ?sqr_ge0 // ler_addl.
  by apply: sumr_ge0 => j _; rewrite sqr_ge0.
rewrite /v_maxabs; elim: (enum _) => /= [|i s IH]; first by rewrite expr0n norm2_ge0.
by rewrite /Order.max; case: ifP.
Qed.
Lemma norm2_mx k (v : 'cV[F]_k) : norm2 v <= k%:R * mx v ^+ 2.
Proof.
apply: (@le_trans _ _ (\sum_(i < k) mx v ^+ 2)); last by rewrite sumr_const card_ord mulr_natl.
apply: ler_sum => i _; rewrite -[v i 0 ^+ 2]ger0_norm ?sqr_ge0 // normrX ler_expn2r ?nnegrE ?mx_ge0 //; exact: mx_entry.
Qed.
(** the projection on the columns is not longer *)
Lemma proj_norm2 m n (A : 'M[F]_(m, n)) (v : 'cV[F]_m) : norm2 (A *m (pinv A *m v)) <= norm2 v.
Proof.
move: (pinv A) (pinv_penrose A) => X [E1 E2 E3 E4].
have Ho : (A *m (X *m v))^T *m (v - A *m (X *m v)) = 0.
  have PP : A *m X *m (A *m X) = A *m X by rewrite mulmxA E1.
  by rewrite (mulmxA A) trmx_mul E3 -(mulmxA v^T) mulmxBr (mulmxA (A *m X) (A *m X)) PP subrr mulmx0.
have -> : norm2 v = norm2 (A *m (X *m v) + (v - A *m (X *m v))) by rewrite addrC subrK.
by rewrite (norm2D Ho) ler_addl norm2_ge0.
Qed.
Lemma proj_mx m n (A : 'M[F]_(m, n)) (v : 'cV[F]_m) : mx (A *m (pinv A *m v)) <= (1 + m%:R) * mx v.
Proof.
have H : mx (A *m (pinv A *m v)) ^+ 2 <= ((1 + m%:R) * mx v) ^+ 2.
  rewrite exprMn; apply: le_trans (mx_norm2 _) _; apply: le_trans (proj_norm2 A v) _.
  apply: le_trans (norm2_mx v) _; rewrite ler_wpmul2r ?exprn_ge0 ?mx_ge0 //.
  apply: (@le_trans _ _ (1 + m%:R)); first by rewrite ler_addr ler01.
  by rewrite expr2 ler_pmulr ?ler_addl ?ler0n // (lt_le_trans ltr01) // ler_addl ler0n.
by move: H; rewrite ler_pexpn2r // nnegrE ?mx_ge0 // mulr_ge0 ?mx_ge0 // addr_ge0 ?ler0n ?ler01.
Qed.
End Size.

Section Kernels.
Variable F : realFieldType.
(** [A+ A] is the identity on what is orthogonal to the kernel, and depends on the kernel only *)
Lemma pinv_range_mem m n (A : 'M[F]_(m, n)) (v : 'cV[F]_m) : exists w, pinv A *m v = A^T *m w.
Proof. by exists ((pinv A)^T *m pinv A *m v); rewrite mulmxA -pinv_range. Qed.
Lemma kernel_proj m n (A B : 'M[F]_(m, n)) (w : 'cV[F]_m) : same_kernel A B -> pinv B *m (B *m (A^T *m w)) = A^T *m w.
Proof.
move=> H; set h := A^T *m w; set d := pinv B *m (B *m h) - h.
have Bd : B *m d = 0.
  rewrite /d; move: (pinv B) (pinv_penrose B) => X [E1 _ _ _].
  by rewrite mulmxBr (mulmxA B X) (mulmxA (B *m X)) E1 subrr.
have Ad : A *m d = 0 by apply/H.
have [u Eu] := pinv_range_mem B (B *m h).
have Hd : norm2 d = 0.
  rewrite norm2E {1}/d Eu /h [(_ - _)^T]linearB /= !trmx_mul !trmxK mulmxBl -!mulmxA Bd Ad !mulmx0 subrr.
  by rewrite mxE.
by move/norm2_eq0: Hd => /eqP; rewrite subr_eq0 => /eqP.
Qed.
Lemma same_kernel_range m n (A B : 'M[F]_(m, n)) (w : 'cV[F]_m) : same_kernel A B -> exists u, B^T *m w = A^T *m u.
Proof.
move=> H; have [u Eu] := pinv_range_mem A (A *m (B^T *m w)); exists u; rewrite -Eu; apply/esym/kernel_proj.
by move=> v; split=> /H.
Qed.
(** no step exactly at a stationary point *)
Lemma pinv0 m n (A : 'M[F]_(m, n)) (v : 'cV[F]_m) : pinv A *m v = 0 <-> A^T *m v = 0.
Proof.
move: (pinv A) (pinv_penrose A) (pinv_normal A) => X [E1 E2 E3 E4] HN; split=> H.
  by rewrite -{1}HN -mulmxA -mulmxA H !mulmx0.
have EX : X = X *m X^T *m A^T by rewrite -mulmxA -trmx_mul E3 mulmxA E2.
by rewrite EX -mulmxA H mulmx0.
Qed.
Lemma stationaryP m n (A : 'M[F]_(m, n)) (v : 'cV[F]_m) : stationary A v <-> A^T *m v = 0.
Proof.
split=> [H|H j].
  by apply/colP=> j; rewrite !mxE -[RHS](H j); apply: eq_bigr => i _; rewrite mxE mulrC.
have /colP/(_ j) := H; rewrite !mxE => E; rewrite -[RHS]E.
by apply: eq_bigr => i _; rewrite mxE mulrC.
Qed.
End Kernels.
