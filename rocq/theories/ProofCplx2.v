From Coq Require Import ZArith Lia.
From mathcomp Require Import all_ssreflect all_algebra.
From Verif Require Import Base ModelPe SpecPe ProofPe ModelSolve SpecSolve ProofSolve ModelCplx SpecCplx ProofCplx.
Set Implicit Arguments.
Unset Strict Implicit.
Unset Printing Implicit Defensive.
Import GRing.Theory Num.Theory.
Local Open Scope ring_scope.

Section Proofs.
Variables (F : numClosedFieldType) (Ar : Type) (m n : nat).
Notation value := (@cvalue F Ar n).
Variable jac : (seq value -> 'cV[F]_m) -> seq value -> 'M[F]_(m, n).
Hypothesis jac_ok : cdifferentiates jac.

Lemma maxabs0 k : c_maxabs (0 : 'cV[F]_k) = 0.
Proof.
rewrite /c_maxabs; elim: (enum _) => //= i s ->.
by rewrite mxE normr0 Order.POrderTheory.maxxx.
Qed.
Lemma maxabs1 k : (0 < k)%N -> c_maxabs (const_mx 1 : 'cV[F]_k) = 1.
Proof.
move=> Hk; rewrite /c_maxabs.
have H s : foldr Order.max 0 [seq `|(const_mx 1 : 'cV[F]_k) i 0| | i <- s] = if s is [::] then 0 else 1.
  elim: s => //= i s ->; rewrite mxE normr1.
  by apply: Order.POrderTheory.max_l; case: s => [|j s]; rewrite ?ler01.
by rewrite H; case E: (enum _) => //; move: (size_enum_ord k); rewrite E => E'; move: Hk; rewrite -E'.
Qed.

Variables (res : seq value -> 'cV[F]_m) (args : seq value) (A : 'M[F]_(m, n)) (b : 'cV[F]_m).
Variable J : option (seq value -> 'M[F]_(m, n)).
Hypothesis res_ok : cres_is res args A b.
Hypothesis J_ok : forall j, J = Some j -> forall x, j (CUnk x :: args) = A.

Lemma solve_valid (s : method_) : is_method s ->
  solve_fun (@c_pinv_dot F m n) (@c_pinv_dot F m n) s = Some (@c_pinv_dot F m n).
Proof. by case: s. Qed.
Lemma jacE x : (match J with Some j => j | None => jac res end) (CUnk x :: args) = A.
Proof. by case E: J => [j|]; [apply: J_ok|apply: jac_ok res_ok _]. Qed.
Lemma ls_closureE x : ls_closure (@GRing.opp _) jac res J (@c_pinv_dot F m n) (CUnk x :: args)
  = hpinv A *m - caffine A b x.
Proof. by rewrite /ls_closure jacE res_ok. Qed.
Lemma updE x : the_upd jac (@c_pinv_dot F m n) res J args (CUnk x) = hpinv A *m caffine A b x.
Proof. by rewrite /the_upd /nlls_closure jacE res_ok. Qed.

(** the point one step leads to *)
Definition star (x : 'cV[F]_n) := x - hpinv A *m caffine A b x.
Lemma affine_shift x y : caffine A b (x + y) = caffine A (caffine A b x) y.
Proof. by rewrite /caffine mulmxDr addrAC addrC addrA. Qed.
Lemma star_minimises x : cminimises (caffine A b) (star x).
Proof.
move=> y; rewrite /star -mulmxN affine_shift -[y](subrK x) addrC affine_shift.
exact: pinv_minimises.
Qed.
(** ... which is the minimiser nearest to where we were *)
Lemma star_nearest x y : cminimises (caffine A b) y -> cnorm2 (y - x) <= cnorm2 (star x - x) -> y = star x.
Proof.
move=> Hy Hn.
have Hs : cshortest (caffine A (caffine A b x)) (hpinv A *m - caffine A b x) by apply: pinv_shortest.
have E : star x - x = hpinv A *m - caffine A b x by rewrite /star addrAC subrr add0r mulmxN.
apply: (addIr (- x)); rewrite E; apply: Hs; last by rewrite -E.
by move=> z; rewrite -!affine_shift addrC subrK; apply: Hy.
Qed.
Lemma star_upd x : hpinv A *m caffine A b (star x) = 0.
Proof.
have /minimisesP H := star_minimises x.
case: (pinv_penrose A) => _ E2 /hermP E3 _.
have EX : hpinv A = hpinv A *m (herm (hpinv A)) *m (herm A) by rewrite -mulmxA -herm_mul E3 mulmxA E2.
by rewrite EX -mulmxA H mulmx0.
Qed.
Lemma star_full x : row_free (herm A) -> star x = hpinv A *m - b.
Proof.
move=> HA; rewrite /star /caffine mulmxDr mulmxA (pinv_left HA) mul1mx opprD addrA subrr add0r.
by rewrite mulmxN.
Qed.
Lemma star_zero : star 0 = hpinv A *m - b.
Proof. by rewrite /star /caffine mulmx0 !add0r mulmxN. Qed.

(** the iterates *)
Notation upd := (the_upd jac (@c_pinv_dot F m n) res J args).
Lemma iterate_star k x : iterate (@c_subt F Ar n) upd k.+1 (CUnk x) = CUnk (star x).
Proof.
elim: k => [|k IH].
  by rewrite /iterate updE.
have -> : iterate (@c_subt F Ar n) upd k.+2 (CUnk x) = let y := iterate (@c_subt F Ar n) upd k.+1 (CUnk x) in c_subt y (upd y) by [].
by rewrite IH /= updE star_upd subr0.
Qed.
Lemma step_two x d0 : last_step (@c_subt F Ar n) upd d0 2 (CUnk x) = 0.
Proof. by rewrite /last_step iterate_star updE star_upd. Qed.
Lemma stop_two x d0 tol maxIter : 0 <= tol ->
  stops (@c_subt F Ar n) upd (fun x => res (x :: args)) (@c_maxabs F m) (@c_maxabs F n) (@c_gt F) tol maxIter d0 (CUnk x) 2.
Proof.
move=> Ht; right; right; rewrite step_two maxabs0 /c_gt; apply/negbTE/negP=> Hlt.
by have := Order.POrderTheory.lt_le_trans Hlt Ht; rewrite Order.POrderTheory.ltxx.
Qed.

(** ** Answers of LS and LsClass *)
Lemma vls_value z consts s timer : is_method s -> ascending consts ->
  List.Forall (fun k => Peano.le 1 k /\ Peano.le k (length args)) consts ->
  LS (@c_pinv_dot F m n) (@c_pinv_dot F m n) (@GRing.opp _) (@c_add F Ar n) (@c_zeros F Ar n) jac (CUnk z) res args consts J s timer = Some (CUnk (hpinv A *m - b), List.rev consts).
Proof.
move=> Hs Ha Hb; apply: ls_spec (solve_valid Hs) Ha Hb _ => //=.
rewrite ls_closureE add0r; do 3 f_equal.
by rewrite /caffine mulmx0 add0r.
Qed.
End Proofs.
