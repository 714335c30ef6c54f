From Coq Require Import ZArith Lia.
From mathcomp Require Import all_ssreflect all_algebra.
From Verif Require Import Base ModelPe SpecPe ProofPe ModelSolve SpecSolve ProofSolve ModelPinv SpecPinv ProofPinv ModelAffine SpecAffine.
Set Implicit Arguments.
Unset Strict Implicit.
Unset Printing Implicit Defensive.
Import GRing.Theory Num.Theory.
Local Open Scope ring_scope.

Section Proofs.
Variables (F : realFieldType) (Ar : Type) (m n : nat).
Notation value := (@value F Ar n).
Variable jac : (seq value -> 'cV[F]_m) -> seq value -> 'M[F]_(m, n).
Hypothesis jac_ok : differentiates jac.

Lemma maxabs0 k : v_maxabs (0 : 'cV[F]_k) = 0.
Proof.
rewrite /v_maxabs; elim: (enum _) => //= i s ->.
by rewrite mxE normr0 Order.POrderTheory.maxxx.
Qed.
Lemma maxabs1 k : (0 < k)%N -> v_maxabs (const_mx 1 : 'cV[F]_k) = 1.
Proof.
move=> Hk; rewrite /v_maxabs.
have H s : foldr Order.max 0 [seq `|(const_mx 1 : 'cV[F]_k) i 0| | i <- s] = if s is [::] then 0 else 1.
  elim: s => //= i s ->; rewrite mxE normr1.
  by apply: Order.POrderTheory.max_l; case: s => [|j s]; rewrite ?ler01.
by rewrite H; case E: (enum _) => //; move: (size_enum_ord k); rewrite E => E'; move: Hk; rewrite -E'.
Qed.

Variables (res : seq value -> 'cV[F]_m) (args : seq value) (A : 'M[F]_(m, n)) (b : 'cV[F]_m).
Variable J : option (seq value -> 'M[F]_(m, n)).
Hypothesis res_ok : res_is res args A b.
Hypothesis J_ok : user_jac J args A.

Lemma solve_valid (s : method_) : valid_method s ->
  solve_fun (@v_pinv_dot F m n) (@v_pinv_dot F m n) s = Some (@v_pinv_dot F m n).
Proof. by case: s. Qed.
Lemma jacE x : (match J with Some j => j | None => jac res end) (Unk x :: args) = A.
Proof. by case E: J => [j|]; [apply: J_ok|apply: jac_ok res_ok _]. Qed.
Lemma ls_closureE x : ls_closure (@GRing.opp _) jac res J (@v_pinv_dot F m n) (Unk x :: args)
  = pinv A *m - affine A b x.
Proof. by rewrite /ls_closure jacE res_ok. Qed.
Lemma updE x : the_upd jac (@v_pinv_dot F m n) res J args (Unk x) = pinv A *m affine A b x.
Proof. by rewrite /the_upd /nlls_closure jacE res_ok. Qed.

(** the point one step leads to *)
Definition star (x : 'cV[F]_n) := x - pinv A *m affine A b x.
Lemma affine_shift x y : affine A b (x + y) = affine A (affine A b x) y.
Proof. by rewrite /affine mulmxDr addrAC addrC addrA. Qed.
Lemma star_minimises x : minimises (affine A b) (star x).
Proof.
move=> y; rewrite /star -mulmxN affine_shift -[y](subrK x) addrC affine_shift.
exact: pinv_minimises.
Qed.
(** ... which is the minimiser nearest to where we were *)
Lemma star_nearest x y : minimises (affine A b) y -> norm2 (y - x) <= norm2 (star x - x) -> y = star x.
Proof.
move=> Hy Hn.
have Hs : shortest (affine A (affine A b x)) (pinv A *m - affine A b x) by apply: pinv_shortest.
have E : star x - x = pinv A *m - affine A b x by rewrite /star addrAC subrr add0r mulmxN.
apply: (addIr (- x)); rewrite E; apply: Hs; last by rewrite -E.
by move=> z; rewrite -!affine_shift addrC subrK; apply: Hy.
Qed.
Lemma star_upd x : pinv A *m affine A b (star x) = 0.
Proof.
have /minimisesP H := star_minimises x.
case: (pinv_penrose A) => _ E2 E3 _.
have EX : pinv A = pinv A *m (pinv A)^T *m A^T by rewrite -mulmxA -trmx_mul E3 mulmxA E2.
by rewrite EX -mulmxA H mulmx0.
Qed.
Lemma star_full x : row_free A^T -> star x = pinv A *m - b.
Proof.
move=> HA; rewrite /star /affine mulmxDr mulmxA (pinv_left HA) mul1mx opprD addrA subrr add0r.
by rewrite mulmxN.
Qed.
Lemma star_zero : star 0 = pinv A *m - b.
Proof. by rewrite /star /affine mulmx0 !add0r mulmxN. Qed.

(** the iterates *)
Notation upd := (the_upd jac (@v_pinv_dot F m n) res J args).
Lemma iterate_star k x : iterate (@v_subt F Ar n) upd k.+1 (Unk x) = Unk (star x).
Proof.
elim: k => [|k IH].
  by rewrite /iterate updE.
have -> : iterate (@v_subt F Ar n) upd k.+2 (Unk x) = let y := iterate (@v_subt F Ar n) upd k.+1 (Unk x) in v_subt y (upd y) by [].
by rewrite IH /= updE star_upd subr0.
Qed.
Lemma step_two x d0 : last_step (@v_subt F Ar n) upd d0 2 (Unk x) = 0.
Proof. by rewrite /last_step iterate_star updE star_upd. Qed.
Lemma stop_two x d0 tol maxIter : 0 <= tol ->
  stops (@v_subt F Ar n) upd (fun x => res (x :: args)) (@v_maxabs F m) (@v_maxabs F n) (@v_gt F) tol maxIter d0 (Unk x) 2.
Proof.
move=> Ht; right; right; rewrite step_two maxabs0 /v_gt; apply/negbTE.
by rewrite -Order.TotalTheory.leNgt.
Qed.

(** ** Answers of LS and LsClass *)
Lemma vls_value z consts s timer : valid_method s -> ascending consts ->
  List.Forall (fun k => Peano.le 1 k /\ Peano.le k (length args)) consts ->
  vLS jac (Unk z) res args consts J s timer = Some (Unk (pinv A *m - b), List.rev consts).
Proof.
move=> Hs Ha Hb; apply: ls_spec (solve_valid Hs) Ha Hb _ => //=.
rewrite ls_closureE add0r; do 3 f_equal.
by rewrite /affine mulmx0 add0r.
Qed.
Lemma vlsrun_value z0 s o c compiled z : valid_method s ->
  vLsClass_init jac (Unk z0) res args [::] J s true = Some (o, c) ->
  vLsClass_run (LsObj (lo_ls o) (lo_timer o) compiled) (Unk z) args
  = Some (Unk (star z), Unk z, LsObj (lo_ls o) true true).
Proof.
move=> Hs Hi.
have Ha : ascending [::] by constructor.
have Hb : List.Forall (fun k => Peano.le 1 k /\ Peano.le k (length args)) [::] by constructor.
have [_ [Ht Hl]] := lsclass_spec _ _ _ _ _ _ _ _ _ _ _ _ _ (solve_valid Hs) Ha Hb _ Hi.
have Efill : fill [::] 1 args args = args by move: 1%N; elim: (args) => [|a l IH] k //=; rewrite IH.
have {}Hl : lo_ls o (Unk z :: args) = Some (pinv A *m - affine A b z).
  by rewrite Hl; [rewrite Efill ls_closureE|rewrite PeanoNat.Nat.sub_0_r].
apply: (lsclass_run_timer _ _ (LsObj (lo_ls o) (lo_timer o) compiled) (Unk z) args (pinv A *m - affine A b z)
    (Unk (star z)) Ht Hl); by rewrite /= /star mulmxN.
Qed.
Lemma kernel_pinv (w : 'cV[F]_n) : A *m w = 0 -> w^T *m pinv A = 0.
Proof.
move=> Hw; rewrite pinv_range mulmxA; have ->: w^T *m A^T = 0 by rewrite -trmx_mul Hw trmx0.
by rewrite mul0mx.
Qed.
End Proofs.
