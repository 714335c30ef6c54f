(** C74: least squares at the collocation points recovers polynomials exactly. *)
From Coq Require Import ZArith Lia Reals Lra.
From Coquelicot Require Import Coquelicot.
From mathcomp Require Import all_ssreflect all_algebra.
From Verif Require Import Base ModelPe SpecPe ProofPe ModelSolve SpecSolve ProofSolve ModelPinv SpecPinv ProofPinv
  ModelAffine SpecAffine ProofAffine PropAffine.
From Verif Require Import Numbers ModelBFPy SpecBasis ModelELM SpecELM ModelUtfc SpecUtfc ProofUtfc ProofTab SpecColl ProofRecover RealStruct SpecRecover.
Set Implicit Arguments.
Unset Strict Implicit.
Unset Printing Implicit Defensive.
Import GRing.Theory Num.Theory.
Local Open Scope ring_scope.

Lemma row_comb_sum n : forall (row : seq R) (a : nat -> R), List.length row = n ->
  row_comb a row = \sum_(j < n) nth 0 row j * a j.
Proof.
elim: n => [|n IH] [|v row] a //= Hl; first by rewrite big_ord0.
rewrite big_ord_recl /= IH; last by case: Hl.
by congr (_ + _); rewrite mulrC.
Qed.
(** the entries of a column as a function *)
Definition fun_of n (x : 'cV[R]_n) (i : nat) : R := if insub i is Some j then x j 0 else 0.
Lemma fun_of_ord n (x : 'cV[R]_n) (j : 'I_n) : fun_of x j = x j 0.
Proof. by rewrite /fun_of valK. Qed.

Lemma nth_map_R (h : R -> seq R) (xs : seq R) i : (i < size xs)%N -> nth [::] (List.map h xs) i = h (nth 0 xs i).
Proof. by elim: xs i => [|x xs IH] [|i] //= Hi; apply: IH. Qed.

Lemma mx_row m n (h : R -> seq R) (xs : seq R) k c (x : 'cV[R]_n) (i : 'I_m) : size xs = m ->
  (forall t, List.length (h t) = n) ->
  (mx_of m n (Mat k c (List.map h xs)) *m x) i 0 = row_comb (fun_of x) (h (nth 0 xs i)).
Proof.
move=> Hs Hh; rewrite mxE (row_comb_sum _ (Hh _)); apply: eq_bigr => j _.
by rewrite mxE fun_of_ord /= nth_map_R // Hs.
Qed.
Lemma list_size (T : Type) (l : seq T) : List.length l = size l. Proof. by []. Qed.
Lemma in_list_nth (xs : seq R) x : List.In x xs -> exists2 i, (i < size xs)%N & x = nth 0 xs i.
Proof.
elim: xs => [|y xs IH] //= [->|/IH [i Hi ->]]; first by exists 0%N.
by exists i.+1.
Qed.

Section Recover.
Variables (Ar : Type) (jvp : (R -> R) -> R -> R -> R) (be : backend) (f : fam) (N d deg : nat).
Variables (x0 xf : R) (w b : seq R) (u : utfc (T:=R)) (q : seq R).
Local Notation n := (Nat.sub (Nat.add deg 1%N) d).
Hypothesis Hj : jvp_ok jvp.
Hypothesis Hf : f <> FS.
Hypothesis HN : Peano.le 2 N.
Hypothesis Hx : Rlt x0 xf.
Hypothesis Hle : Peano.le n N.
Hypothesis Hq : Peano.le (List.length q) n.
Hypothesis Hu : mk be (UB f) N (NcInt (Z.of_nat d)) deg x0 xf w b = Some u.

Lemma matrix_facts : exists M, utfc_H ROps RFun jvp u (u_x u) d false = Some M /\
  row_free (mx_of N n M)^T /\ (0 < n)%N /\
  (exists xs, affine (mx_of N n M) (- values N (poly_at q) (u_x u)) xs = 0) /\
  forall xi : 'cV[R]_n, affine (mx_of N n M) (- values N (poly_at q) (u_x u)) xi = 0 ->
  exists y : nat -> R -> R,
    (forall e t, exists Mt, utfc_H ROps RFun jvp u [:: t] e false = Some Mt /\ mx_of 1 n Mt *m xi = const_mx (y e t)) /\
    (forall e t, is_derive (y e) t (y e.+1 t)) /\ forall t, y d t = poly_at q t.
Proof.
have [h [HH [Hl [Hd [Hi [[a Ha] Hlen]]]]]] := @rows jvp Hj be f N d deg x0 xf w b u q Hu Hf HN Hx Hle Hq.
have Hsz : size (u_x u) = N by rewrite -Hlen.
exists (Mat (List.length (u_x u)) n (List.map (h d) (u_x u))); split; first exact: HH.
set A := mx_of N n _.
have HA (x : 'cV[R]_n) i : (A *m x) i 0 = row_comb (fun_of x) (h d (nth 0 (u_x u) i)) by apply: mx_row.
have Hzero (x : 'cV[R]_n) : A *m x = 0 -> x = 0.
  move=> Hz; apply/matrixP=> i j; rewrite ord1 mxE -fun_of_ord.
  apply: (Hi (fun_of x)); last by apply/ltP; exact: ltn_ord.
  move=> t /in_list_nth [k]; rewrite Hsz => Hk ->.
  by have := HA x (Ordinal Hk); rewrite Hz mxE /= => <-.
split.
  apply: inj_row_free => v Hv; apply/trmx_inj; rewrite trmx0; apply: Hzero.
  by apply/trmx_inj; rewrite trmx_mul trmxK Hv trmx0.
split.
  have [l [? [? [El [Hl' _]]]]] := mk_inv _ _ _ _ _ _ _ _ _ _ Hu.
  move: El => /=; rewrite Nat2Z.id => -[El]; move: Hl'; rewrite -El List.map_length List.seq_length => Hdd.
  by apply/ltP; lia.
pose xa : 'cV[R]_n := \col_j a j.
have Ea t : row_comb (fun_of xa) (h d t) = poly_at q t.
  rewrite -Ha !(row_comb_sum _ (Hl d t)); apply: eq_bigr => j _.
  by rewrite fun_of_ord mxE.
have Exa : affine A (- values N (poly_at q) (u_x u)) xa = 0.
  by apply/matrixP=> i j; rewrite /affine ord1 mxE HA Ea !mxE subrr.
split; first by exists xa.
move=> xi Hxi.
have -> : xi = xa.
  apply/eqP; rewrite -subr_eq0; apply/eqP; apply: Hzero.
  move: Hxi Exa; rewrite /affine => /eqP; rewrite addr_eq0 => /eqP E1 /eqP; rewrite addr_eq0 => /eqP E2.
  by rewrite mulmxBr E1 E2 subrr.
exists (fun e t => row_comb (fun_of xa) (h e t)); split.
  move=> e t; exists (Mat 1 n (List.map (h e) [:: t])); split; first exact: HH.
  apply/matrixP=> i j; rewrite !ord1 [RHS]mxE.
  by rewrite (@mx_row 1 n (h e) [:: t]).
by split=> // e t; apply: Hd.
Qed.
End Recover.

(** ** C74.  [LS] on the residual [d-th derivative of H(x) xi, minus q(x)], with [q] a polynomial
    that the d-th derivatives of the kept functions can represent: the function with the
    coefficients that [LS] returns has d-th derivative [q] everywhere, not only at the points. *)
Theorem C74_ls_exact : forall (Ar : Type) jvp be f N d deg x0 xf w b u (q : seq R),
  jvp_ok jvp -> f <> FS -> Peano.le 2 N -> Rlt x0 xf ->
  mk be (UB f) N (NcInt (Z.of_nat d)) deg x0 xf w b = Some u ->
  Peano.le (Nat.sub (Nat.add deg 1%N) d) N -> Peano.le (List.length q) (Nat.sub (Nat.add deg 1%N) d) ->
  let n := (Nat.sub (Nat.add deg 1%N) d) in
  exists M, utfc_H ROps RFun jvp u (u_x u) d false = Some M /\
  forall (jac : (seq (value R_realFieldType Ar n) -> 'cV[R]_N) -> seq (value R_realFieldType Ar n) -> 'M[R]_(N, n))
    (res : seq (value R_realFieldType Ar n) -> 'cV[R]_N) args J z consts s timer,
  differentiates jac -> res_is res args (mx_of N n M) (- values N (poly_at q) (u_x u)) ->
  user_jac J args (mx_of N n M) -> valid_method s ->
  ascending consts -> List.Forall (fun k => Peano.le 1 k /\ Peano.le k (length args)) consts ->
  exists xi c y, vLS jac (Unk z) res args consts J s timer = Some (Unk xi, c) /\
    (forall t, exists Mt, utfc_H ROps RFun jvp u [:: t] 0 false = Some Mt /\ mx_of 1 n Mt *m xi = const_mx (y t)) /\
    forall t, is_derive_n y d t (poly_at q t).
Proof.
move=> Ar jvp be f N d deg x0 xf w b u q Hj Hf HN Hx Hu Hle Hq n.
have [M [EM [Hfree [Hn [Hex Hall]]]]] := matrix_facts Hj Hf HN Hx Hle Hq Hu.
exists M; split=> // jac res args J z consts s timer Hjac Hres HJ Hs Ha Hc.
have [xi [E [_ [_ Hz]]]] := C38_least_squares z timer Hjac Hres HJ Hs Ha Hc.
have [y [H1 [H2 H3]]] := Hall xi (Hz Hex).
exists xi, (List.rev consts), (y 0%N); split=> //; split; first by move=> t; apply: H1.
by move=> t; rewrite -H3; apply: is_derive_n_chain.
Qed.
Print Assumptions C74_ls_exact.

(** Adding the polynomial that corrects the initial values, as in a constrained expression, gives
    the solution of the initial value problem [y^(d) = q], [y^(k)(x0) = v k] for [k < d]. *)
Theorem C74_initial_value : forall (Ar : Type) jvp be f N d deg x0 xf w b u (q : seq R) (v : nat -> R),
  jvp_ok jvp -> f <> FS -> Peano.le 2 N -> Rlt x0 xf ->
  mk be (UB f) N (NcInt (Z.of_nat d)) deg x0 xf w b = Some u ->
  Peano.le (Nat.sub (Nat.add deg 1%N) d) N -> Peano.le (List.length q) (Nat.sub (Nat.add deg 1%N) d) ->
  let n := Nat.sub (Nat.add deg 1%N) d in
  exists M, utfc_H ROps RFun jvp u (u_x u) d false = Some M /\
  forall (jac : (seq (value R_realFieldType Ar n) -> 'cV[R]_N) -> seq (value R_realFieldType Ar n) -> 'M[R]_(N, n))
    (res : seq (value R_realFieldType Ar n) -> 'cV[R]_N) args J z consts s timer,
  differentiates jac -> res_is res args (mx_of N n M) (- values N (poly_at q) (u_x u)) ->
  user_jac J args (mx_of N n M) -> valid_method s ->
  ascending consts -> List.Forall (fun k => Peano.le 1 k /\ Peano.le k (length args)) consts ->
  exists xi c (g : R -> R) (g0 : nat -> R), vLS jac (Unk z) res args consts J s timer = Some (Unk xi, c) /\
    (forall t, exists Mt, utfc_H ROps RFun jvp u [:: t] 0 false = Some Mt /\ mx_of 1 n Mt *m xi = const_mx (g t)) /\
    (forall k, exists Mk, utfc_H ROps RFun jvp u [:: x0] k false = Some Mk /\ mx_of 1 n Mk *m xi = const_mx (g0 k)) /\
    let y t := Rplus (g t) (taylor x0 (fun k => Rminus (v k) (g0 k)) d t) in
    (forall t, is_derive_n y d t (poly_at q t)) /\ forall k, Peano.lt k d -> is_derive_n y k x0 (v k).
Proof.
move=> Ar jvp be f N d deg x0 xf w b u q v Hj Hf HN Hx Hu Hle Hq n.
have [M [EM [Hfree [Hn [Hex Hall]]]]] := matrix_facts Hj Hf HN Hx Hle Hq Hu.
exists M; split=> // jac res args J z consts s timer Hjac Hres HJ Hs Ha Hc.
have [xi [E [_ [_ Hz]]]] := C38_least_squares z timer Hjac Hres HJ Hs Ha Hc.
have [y [H1 [H2 H3]]] := Hall xi (Hz Hex).
exists xi, (List.rev consts), (y 0%N), (fun k => y k x0); split=> //.
split; first by move=> t; apply: H1.
split; first by move=> k; apply: H1.
have [T1 T2] := @add_taylor y x0 v d H2.
by split=> // t; rewrite -H3; apply: T1.
Qed.
Print Assumptions C74_initial_value.

(** NLLS started where the residual is not yet below the tolerance gives the same function. *)
Theorem C74_nlls_exact : forall (Ar : Type) jvp be f N d deg x0 xf w b u (q : seq R),
  jvp_ok jvp -> f <> FS -> Peano.le 2 N -> Rlt x0 xf ->
  mk be (UB f) N (NcInt (Z.of_nat d)) deg x0 xf w b = Some u ->
  Peano.le (Nat.sub (Nat.add deg 1%N) d) N -> Peano.le (List.length q) (Nat.sub (Nat.add deg 1%N) d) ->
  let n := Nat.sub (Nat.add deg 1%N) d in
  exists M, utfc_H ROps RFun jvp u (u_x u) d false = Some M /\
  forall (jac : (seq (value R_realFieldType Ar n) -> 'cV[R]_N) -> seq (value R_realFieldType Ar n) -> 'M[R]_(N, n))
    (res : seq (value R_realFieldType Ar n) -> 'cV[R]_N) args J z consts s timer printOut cond tol maxIter fuel,
  differentiates jac -> res_is res args (mx_of N n M) (- values N (poly_at q) (u_x u)) ->
  user_jac J args (mx_of N n M) -> valid_method s ->
  ascending consts -> List.Forall (fun k => Peano.le 1 k /\ Peano.le k (length args)) consts ->
  0 <= tol -> tol < 1 -> Z.le 1 maxIter -> Z.le maxIter (Z.of_nat fuel) -> tol < v_maxabs (res (Unk z :: args)) ->
  exists xi k out y, fst (vNLLS jac fuel (Unk z) res args consts J cond None tol maxIter s timer printOut)
      = NReturns (NResult (Unk xi) (Z.of_nat k) out) /\ (0 < k <= 2)%N /\
    (forall t, exists Mt, utfc_H ROps RFun jvp u [:: t] 0 false = Some Mt /\ mx_of 1 n Mt *m xi = const_mx (y t)) /\
    forall t, is_derive_n y d t (poly_at q t).
Proof.
move=> Ar jvp be f N d deg x0 xf w b u q Hj Hf HN Hx Hu Hle Hq n.
have [M [EM [Hfree [Hn [Hex Hall]]]]] := matrix_facts Hj Hf HN Hx Hle Hq Hu.
exists M; split=> // jac res args J z consts s timer printOut cond tol maxIter fuel Hjac Hres HJ Hs Ha Hc Ht0 Ht1 HM1 HM2 Hr.
have Hf1 : Peano.le 1 fuel by lia.
have [x [k [out [E [Hk [Hpos Hsol]]]]]] := @C42_affine_one_step _ _ _ _ jac res args _ _ J z consts s timer printOut cond tol maxIter fuel
  Hjac Hres HJ Hs Ha Hc Ht0 HM2 Hf1.
have Hk0 : (0 < k)%N by apply: Hpos => //; rewrite -Hres.
have [_ [_ Hls]] := Hsol Hk0; have {Hls} [c Els] := Hls Hfree z timer.
have [xi [E' [_ [_ Hz]]]] := C38_least_squares z timer Hjac Hres HJ Hs Ha Hc.
move: Els; rewrite E' => -[Exi _].
have [y [H1 [H2 H3]]] := Hall xi (Hz Hex).
exists x, k, out, (y 0%N); split=> //; split; first by rewrite Hk0.
rewrite -Exi; split; first by move=> t; apply: H1.
by move=> t; rewrite -H3; apply: is_derive_n_chain.
Qed.
Print Assumptions C74_nlls_exact.

(** y' = 1 + 2 t, y(0) = 5 with three Chebyshev points and the functions T1, T2 *)
Definition rjvp (g : R -> R) (z t : R) : R := Rmult (Derive g z) t.
Lemma rjvp_ok : jvp_ok rjvp.
Proof. by move=> g z l t H; rewrite /rjvp (is_derive_unique _ _ _ H). Qed.
Example C74_case : exists u M xi c (y : R -> R),
  mk Py (UB CP) 3 (NcInt (Z.of_nat 1)) 2 R0 R1 [::] [::] = Some u /\ utfc_H ROps RFun rjvp u (u_x u) 1 false = Some M /\
  let A := mx_of 3 2 M in let rhs := values 3 (poly_at [:: R1; (INR 2)]) (u_x u) in
  let res (l : seq (value R_realFieldType unit 2)) := if l is Unk x :: _ then A *m x - rhs else 0 in
  vLS (@diff_jac _ _ 3 2) (Unk 0) res [:: Arg tt] [:: 1%N] None Lstsq true = Some (Unk xi, c) /\
  (forall t, is_derive_n y 1 t (Rplus R1 (Rmult ((INR 2)) t))) /\ y R0 = INR 5.
Proof.
have [||||u Hu] := @mk_some Py (UB CP) 3 (NcInt (Z.of_nat 1)) [:: Z.of_nat 0] 2 R0 R1 [::] [::] erefl.
- by rewrite /=; lia.
- by move=> i [<-|[]]; lia.
- by left.
- by lia.
have Hx : Rlt R0 R1 by lra.
have [||||M [EM H]] := @C74_initial_value unit rjvp Py CP 3 1 2 R0 R1 [::] [::] u [:: R1; (INR 2)] (fun _ => INR 5) rjvp_ok _ _ Hx Hu.
- by [].
- by lia.
- by rewrite /=; lia.
- by rewrite /=; lia.
pose A := mx_of 3 2 M; pose rhs := values 3 (poly_at [:: R1; (INR 2)]) (u_x u).
pose res (l : seq (value R_realFieldType unit 2)) := if l is Unk x :: _ then A *m x - rhs else 0.
have [||||||xi [c [g [g0 [E [Hg [Hg0 [H1 H2]]]]]]]] := H (@diff_jac _ _ 3 2) res [:: Arg tt] None 0 [:: 1%N] Lstsq true.
- exact: diff_jac_ok.
- by [].
- by [].
- by [].
- by repeat constructor.
- by constructor; [split; apply/leP|constructor].
exists u, M, xi, c; eexists; split; first exact: Hu.
split; first exact: EM.
split; first exact: E.
split; last by apply: (H2 0%N); lia.
move=> t; have := H1 t; congr (is_derive_n _ _ _ _); rewrite /=.
by rewrite Rmult_0_r Rplus_0_r Rmult_comm.
Qed.
