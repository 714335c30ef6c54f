(** Newton's method on dictionaries (C109). *)
From Coq Require Import ZArith Lia.
From mathcomp Require Import all_ssreflect all_algebra.
From Verif Require Import Base ModelDict SpecDict ProofDict ModelPe SpecPe ModelSolve ModelSolveDict SpecSolveDict ProofSolveDict
  ModelPinv SpecPinv ModelAffine SpecAffine ModelAffineDict SpecAffineDict ProofAffineDict ModelNllsDict SpecNllsDict ProofNllsDict PropNllsDict
  SpecNewton SpecIdle PropIdle.
Set Implicit Arguments.
Unset Strict Implicit.
Unset Printing Implicit Defensive.
Import GRing.Theory Num.Theory.
Local Open Scope ring_scope.

Lemma col_of_col (F : realFieldType) k (v : 'cV[F]_k) : \col_i nth 0 (of_col v) i = v.
Proof. by rewrite -[RHS](of_colK v); apply/matrixP=> i j; rewrite !mxE muln1 ord1 addn0. Qed.

(** C109, near a zero: let the residual be a function [r] of the packed entries with a second-order
    Taylor bound and derivative [jf], which automatic differentiation finds; let [cs] be a dictionary
    at which it is zero, and let the directions in which the derivative is zero there change nothing.
    NLLS from any dictionary [z] close to [cs] returns after [k] iterations a dictionary of the same
    form whose entries are within [1 / (c 2^(2^k))] of those of another zero, which depends on [z]
    only, is close to [cs] and equal to it but for such directions; with enough iterations allowed it
    stops by itself, within a multiple of [tol]. *)
Theorem C109_newton : forall (F : realFieldType) (K Ar : Type) (keq : K -> K -> bool) cl jacfwd m n (cs : seq (K * @arr F)) args
    (res : seq (dvalue F K Ar) -> seq F) (r : 'cV[F]_n -> 'cV[F]_m) jf consts s rho L,
  keq_ok keq -> entries_ok cl cs -> size (packed cs) = n ->
  (forall c, same_form cs c -> res (DUnk c :: dargs args) = of_col (r (pack n c)) /\
     exists D, jac_of m D c (jacfwd (fun v => res (DUnk v :: dargs args)) c) /\ jf (pack n c) = \matrix_(i, j) nth 0 (derivatives D c i) j) ->
  valid_method s -> ascending consts -> List.Forall (fun k => Peano.le 1 k /\ Peano.le k (length args)) consts ->
  taylor r jf (pack n cs) rho L -> r (pack n cs) = 0 -> 0 <= L -> 0 < rho ->
  (forall k, jf (pack n cs) *m k = 0 -> idle r jf k) ->
  exists radius c C : F, [/\ 0 < radius, 0 < c, 0 < C &
    forall h (d : @tdict F K) z, List.NoDup (List.map fst (td_items d)) -> contents h d = Some z -> same_form cs z ->
    within (pack n z - pack n cs) radius ->
    exists xs' : 'cV[F]_n, [/\ r xs' = 0, jf (pack n cs) *m (xs' - pack n cs) = 0, idle r jf (xs' - pack n cs) &
    forall timer printOut tol maxIter fuel, 0 < tol -> Z.le maxIter (Z.of_nat fuel) -> Peano.le 1 fuel ->
    exists c' k out, [/\
      fst (dNLLS keq cl 1 (fun x y => x - y) (@l_solve F) (@l_maxabs F) (@v_gt F) jacfwd fuel h d res (dargs args) consts None tol maxIter s timer printOut)
        = NReturns (NResult (DUnk c') (Z.of_nat k) out),
      same_form cs c', within (pack n c' - xs') ((c * 2%:R ^+ (2 ^ k))^-1) &
      forall K', tol < 1 -> 2%:R <= tol * c * 2%:R ^+ (2 ^ K') -> Z.lt (Z.of_nat K'.+1) maxIter ->
        (k <= K'.+1)%N /\ within (pack n c' - xs') (C * tol)]]].
Proof.
move=> F K Ar keq cl jacfwd m n cs args res r jf consts s rho L Hk He Hn Hres Hs Ha Hb HT Hz HL Hrho Hid.
pose vres := fun l : seq (value F Ar n) => if l is Unk x :: _ then r x else 0.
pose jac := fun (_ : seq (value F Ar n) -> 'cV[F]_m) (l : seq (value F Ar n)) => if l is Unk x :: _ then jf x else 0.
have L2 : length (vargs args : seq (value F Ar n)) = length args by rewrite /vargs sizeE size_map.
have Hb2 := Hb; rewrite -L2 in Hb2.
have Hsw : solves_with jac vres (vargs args) None r jf by [].
have [radius [c [C [H1 H2 H3 Hgo]]]] := C99_idle Hsw Hs Ha Hb2 HT Hz HL Hrho Hid.
exists radius, c, C; split=> // h d z Hnd Hc Fz Hw.
have [xs' [E1 E2 E3 Hgo']] := Hgo _ Hw.
exists xs'; split=> // timer printOut tol maxIter fuel Ht HM Hf.
have [x [k [out [G1 _ G3 G4]]]] := Hgo' timer printOut None tol maxIter fuel Ht HM Hf.
have Hez := form_ok Fz He.
have Hnz : size (packed z) = n by rewrite -Hn -!sizeE (form_len _ _ Fz (ok_wf He)).
have Hr : same_residual z args res vres.
  move=> c1 F1; have [-> _] := Hres _ (form_sym_trans Fz F1).
  by rewrite size_of_col col_of_col.
have HJ : same_jacobian jacfwd jac z args res vres None None.
  by move=> c1 F1; have [_ [D [D1 D2]]] := Hres _ (form_sym_trans Fz F1); exists D.
have [Ho _] := C109_nlls s tol maxIter timer printOut fuel Hk Hnd Hc Hez Hnz Hr HJ Ha Hb.
rewrite G1 in Ho; move: Ho; case: (fst (dNLLS _ _ _ _ _ _ _ _ _ _ _ _ _ _ _ _ _ _ _ _)) => [[[c'|a] it o']||] //= [Fc [Ex [Eit Eo]]].
exists c', k, out; split; [by rewrite Eit Eo|exact: form_sym_trans Fz Fc|by rewrite -Ex|].
by move=> K' X1 X2 X3; have := G4 K' X1 X2 X3; rewrite -Ex.
Qed.
Print Assumptions C109_newton.
