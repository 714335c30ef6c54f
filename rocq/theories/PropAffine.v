(** C38, C42, C43: the solvers on residuals affine in the unknowns, in exact arithmetic. *)
From Coq Require Import ZArith Lia.
From mathcomp Require Import all_ssreflect all_algebra.
From Verif Require Import Base ModelPe SpecPe ProofPe ModelSolve SpecSolve ProofSolve ModelPinv SpecPinv ProofPinv
  ModelAffine SpecAffine ProofAffine.
Set Implicit Arguments.
Unset Strict Implicit.
Unset Printing Implicit Defensive.
Import GRing.Theory Num.Theory.
Local Open Scope ring_scope.

(** The matrix used for [np.linalg.pinv] is the Moore-Penrose inverse: it satisfies the four
    Penrose conditions and is the only matrix that does. *)
Theorem C38_pinv_is_moore_penrose : forall (F : realFieldType) m n (A : 'M[F]_(m, n)),
  penrose A (pinv A) /\ forall X, penrose A X -> X = pinv A.
Proof. by move=> F m n A; split=> [|X HX]; [apply: pinv_penrose|apply: penrose_unique HX (pinv_penrose A)]. Qed.
Print Assumptions C38_pinv_is_moore_penrose.

(** C38: LS returns the minimiser of least norm, for either method, with or without timing,
    with a Jacobian of the caller's or an automatic one, and any constant arguments listed in
    increasing order. *)
Theorem C38_least_squares : forall (F : realFieldType) (Ar : Type) m n
    (jac : (seq (value F Ar n) -> 'cV[F]_m) -> seq (value F Ar n) -> 'M[F]_(m, n))
    (res : seq (value F Ar n) -> 'cV[F]_m) (args : seq (value F Ar n)) (A : 'M[F]_(m, n)) b J z consts s timer,
  differentiates jac -> res_is res args A b -> user_jac J args A -> valid_method s ->
  ascending consts -> List.Forall (fun k => Peano.le 1 k /\ Peano.le k (length args)) consts ->
  exists x, vLS jac (Unk z) res args consts J s timer = Some (Unk x, List.rev consts) /\
    minimises (affine A b) x /\ shortest (affine A b) x /\
    ((exists y, affine A b y = 0) -> affine A b x = 0).
Proof.
move=> F Ar m n jac res args A b J z consts s timer jac_ok res_ok J_ok Hs Ha Hb.
exists (pinv A *m - b); split.
  exact: vls_value.
have Hm := pinv_minimises A b.
split=> //; split; first exact: pinv_shortest.
case=> y Hy; apply: norm2_eq0; apply/eqP; rewrite Order.POrderTheory.eq_le norm2_ge0 andbT.
by have := Hm y; rewrite Hy norm20.
Qed.
Print Assumptions C38_least_squares.

(** C42, affine residuals: from any start, one step of NLLS reaches a least-squares solution,
    the one nearest to the start; it never takes more than two steps, and with independent
    columns the answer is that of LS. *)
Theorem C42_affine_one_step : forall (F : realFieldType) (Ar : Type) m n
    (jac : (seq (value F Ar n) -> 'cV[F]_m) -> seq (value F Ar n) -> 'M[F]_(m, n))
    (res : seq (value F Ar n) -> 'cV[F]_m) (args : seq (value F Ar n)) (A : 'M[F]_(m, n)) b J x0 consts s timer printOut cond tol maxIter fuel,
  differentiates jac -> res_is res args A b -> user_jac J args A -> valid_method s ->
  ascending consts -> List.Forall (fun k => Peano.le 1 k /\ Peano.le k (length args)) consts ->
  0 <= tol -> Z.le maxIter (Z.of_nat fuel) -> Peano.le 1 fuel ->
  exists x k out, fst (vNLLS jac fuel (Unk x0) res args consts J cond None tol maxIter s timer printOut)
      = NReturns (NResult (Unk x) (Z.of_nat k) out) /\ (k <= 2)%N /\
    ((0 < n)%N -> tol < 1 -> Z.le 1 maxIter -> tol < v_maxabs (affine A b x0) -> (0 < k)%N) /\
    ((0 < k)%N -> minimises (affine A b) x /\
       (forall y, minimises (affine A b) y -> norm2 (y - x0) <= norm2 (x - x0) -> y = x) /\
       (row_free A^T -> forall z t, exists c, vLS jac (Unk z) res args consts J s t = Some (Unk x, c))).
Proof.
move=> F Ar m n jac res args A b J x0 consts s timer printOut cond tol maxIter fuel jac_ok res_ok J_ok Hs Ha Hb Ht Hf H1.
have [k [[Hk Hn] E]] := @nlls_spec _ _ _ _ _ (@v_pinv_dot F m n) (@v_pinv_dot F m n) (@v_sub F Ar n) (@v_ones F Ar n)
  (@v_maxabs F m) (@v_maxabs F n) (@v_gt F) jac fuel (Unk x0) res args consts J cond tol maxIter s timer printOut _ (@v_subt F Ar n)
  (solve_valid _ _ _ Hs) (fun _ _ => erefl) Ha Hb Hf H1.
have Hk2 : (k <= 2)%N.
  rewrite leqNgt; apply/negP=> Hlt; exact: (Hn 2%N (ltP Hlt) (stop_two jac_ok res_ok J_ok _ _ _ Ht)).
have Hx : (0 < k)%N -> iterate (@v_subt F Ar n) (the_upd jac (@v_pinv_dot F m n) res J args) k (Unk x0) = Unk (star A b x0).
  by case: k {Hk Hn E Hk2} => // k _; rewrite (iterate_star jac_ok res_ok J_ok).
case: k Hk Hn E Hk2 Hx => [|k] Hk Hn E Hk2 Hx.
  exists x0, 0%N; eexists; split; first by rewrite /vNLLS E; reflexivity.
  split=> //; split=> //.
  move=> Hn0 Ht1 HM Hr; exfalso; case: Hk => [|[|]] /=.
  - by rewrite res_ok /v_gt Hr.
  - by move=> HM'; lia.
  - by rewrite /v_ones maxabs1 // /v_gt Ht1.
exists (star A b x0), k.+1; eexists; split; first by rewrite /vNLLS E Hx //; reflexivity.
split=> //; split=> // _; split; first exact: star_minimises.
split; first by move=> y; apply: star_nearest.
move=> HA z t; exists (List.rev consts).
by rewrite (star_full _ _ HA); apply: vls_value.
Qed.
Print Assumptions C42_affine_one_step.

(** C43, linear, with the timer: LsClass.run gives the least-squares solution nearest to the
    start it is given.  That is LS's answer when the start is zero or the columns are
    independent.  Missing: other starts, and no timer. *)
Theorem C43_ls_timed_partial : forall (F : realFieldType) (Ar : Type) m n
    (jac : (seq (value F Ar n) -> 'cV[F]_m) -> seq (value F Ar n) -> 'M[F]_(m, n))
    (res : seq (value F Ar n) -> 'cV[F]_m) (args : seq (value F Ar n)) (A : 'M[F]_(m, n)) b J z0 s o c compiled,
  differentiates jac -> res_is res args A b -> user_jac J args A -> valid_method s ->
  vLsClass_init jac (Unk z0) res args [::] J s true = Some (o, c) ->
  forall z, exists x o', vLsClass_run (LsObj (lo_ls o) (lo_timer o) compiled) (Unk z) args = Some (Unk x, Unk z, o') /\
    minimises (affine A b) x /\
    (forall y, minimises (affine A b) y -> norm2 (y - z) <= norm2 (x - z) -> y = x) /\
    (z = 0 \/ row_free A^T -> forall z' t, vLS jac (Unk z') res args [::] J s t = Some (Unk x, [::])).
Proof.
move=> F Ar m n jac res args A b J z0 s o c compiled jac_ok res_ok J_ok Hs Hi z.
exists (star A b z); eexists; split; first exact: (vlsrun_value jac_ok res_ok J_ok _ _ Hs Hi).
split; first exact: star_minimises.
split; first by move=> y; apply: star_nearest.
move=> Hz z' t; have -> : star A b z = pinv A *m - b.
  by case: Hz => [->|HA]; [apply: star_zero|apply: star_full].
by apply: vls_value => //; constructor.
Qed.
Print Assumptions C43_ls_timed_partial.

(** For any other start the answers differ, whatever the right-hand side: e.g. with a zero
    matrix the run returns its start and LS returns zero. *)
Theorem C43_ls_start_matters_refuted : forall (F : realFieldType) (Ar : Type) m n
    (jac : (seq (value F Ar n) -> 'cV[F]_m) -> seq (value F Ar n) -> 'M[F]_(m, n))
    (res : seq (value F Ar n) -> 'cV[F]_m) (args : seq (value F Ar n)) (A : 'M[F]_(m, n)) b J z0 s o c,
  differentiates jac -> res_is res args A b -> user_jac J args A -> valid_method s ->
  vLsClass_init jac (Unk z0) res args [::] J s true = Some (o, c) ->
  forall (z w : 'cV[F]_n), A *m w = 0 -> w^T *m z <> 0 ->
  exists x x' o' c', vLsClass_run o (Unk z) args = Some (Unk x, Unk z, o') /\
    vLS jac (Unk z) res args [::] J s true = Some (Unk x', c') /\ x <> x'.
Proof.
move=> F Ar m n jac res args A b J z0 s o c jac_ok res_ok J_ok Hs Hi z w Hw Hwz.
exists (star A b z), (pinv A *m - b), (LsObj (lo_ls o) true true), [::]; split.
  have <- : LsObj (lo_ls o) (lo_timer o) (lo_compiled o) = o by case: (o).
  exact: (vlsrun_value jac_ok res_ok J_ok _ _ Hs Hi).
split; first by apply: vls_value => //; constructor.
move=> Ex; apply: Hwz; have := congr1 (mulmx w^T) Ex.
rewrite /star mulmxBr; move: (kernel_pinv Hw); move: (pinv A) => P HP.
by rewrite !mulmxA HP !mul0mx subr0.
Qed.
Print Assumptions C43_ls_start_matters_refuted.

(** An automatic Jacobian that differentiates affine functions exists: unit differences. *)
Definition diff_jac (F : realFieldType) (Ar : Type) m n (res : seq (value F Ar n) -> 'cV[F]_m) (l : seq (value F Ar n)) : 'M[F]_(m, n) :=
  match l with
  | Unk x :: args => \matrix_(i, j) ((res (Unk (x + delta_mx j 0) :: args) - res (Unk x :: args)) i 0)
  | _ => 0
  end.
Example diff_jac_ok (F : realFieldType) (Ar : Type) m n : differentiates (@diff_jac F Ar m n).
Proof.
move=> res args A b Hr x; apply/matrixP=> i j; rewrite /diff_jac mxE !Hr.
by rewrite /affine mulmxDr addrAC [A *m x + b + _]addrC addrK -colE mxE.
Qed.
(** A concrete over-determined problem: x = 0, x = 2 in one unknown; the answer is 1. *)
Example C38_case :
  let A : 'M[rat]_(2, 1) := const_mx 1 in
  let b : 'cV[rat]_2 := \col_i (if i == 0 then 0 else - (1 + 1)) in
  let res (l : seq (value [realFieldType of rat] unit 1)) := if l is Unk x :: _ then affine A b x else 0 in
  exists x, vLS (@diff_jac _ _ 2 1) (Unk 0) res [:: Arg tt] [:: 1%N] None Pinv true = Some (Unk x, [:: 1%N]) /\
    x = const_mx 1 /\ norm2 (affine A b x) = 1 + 1.
Proof.
move=> A b res.
have [|||||x [E [Hm _]]] := @C38_least_squares [realFieldType of rat] unit 2 1 (@diff_jac _ _ 2 1) res [:: Arg tt] A b None 0 [:: 1%N] Pinv true (@diff_jac_ok _ _ _ _).
- by [].
- by [].
- by [].
- by repeat constructor.
- by constructor; [split; apply/leP|constructor].
exists x; split=> //.
have Ex : x = const_mx 1.
  move/minimisesP: Hm => /matrixP/(_ 0 0).
  rewrite !mxE !big_ord_recl big_ord0 !mxE !big_ord_recl !big_ord0 !mxE /=.
  rewrite !addr0 !mul1r => H; apply/matrixP=> i j; rewrite !ord1 !mxE.
  apply: (mulfI (_ : 1 + 1 != 0 :> rat)) => //.
  apply/eqP; rewrite -subr_eq0 mulr1 mulrDl mul1r -[X in _ == X]H; apply/eqP.
  by rewrite addrA.
split=> //; rewrite Ex /norm2 !big_ord_recl big_ord0 !mxE !big_ord_recl !big_ord0 !mxE /=.
by rewrite !addr0 mulr1.
Qed.
(** The hypotheses of the last theorem hold for a matrix with a zero column. *)
Example C43_case_start :
  let A : 'M[rat]_(1, 2) := delta_mx 0 0 in let w : 'cV[rat]_2 := delta_mx 1 0 in
  A *m w = 0 /\ w^T *m w <> 0.
Proof.
split; first by rewrite mul_delta_mx_0.
by rewrite trmx_delta mul_delta_mx => /matrixP/(_ 0 0); rewrite !mxE.
Qed.
