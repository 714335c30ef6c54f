(** C92: linear differential equations with polynomial coefficients, solved with a constrained
    expression and LS or NLLS. *)
From Coq Require Import ZArith Lia Reals Lra.
From Coquelicot Require Import Coquelicot.
From mathcomp Require Import all_ssreflect all_algebra.
From Verif Require Import Base ModelPe SpecPe ProofPe ModelSolve SpecSolve ProofSolve ModelPinv SpecPinv ProofPinv
  ModelAffine SpecAffine ProofAffine PropAffine.
From Verif Require Import Numbers ModelBFPy SpecBasis ModelELM SpecELM ModelUtfc SpecUtfc ProofUtfc ProofTab ProofIndep SpecColl ProofColl ProofRecover
  RealStruct SpecRecover PropRecover ModelOde SpecOde ProofOde.
Set Implicit Arguments.
Unset Strict Implicit.
Unset Printing Implicit Defensive.
Import GRing.Theory Num.Theory.
Local Open Scope ring_scope.

(** ** any small polynomial is a combination of the switching polynomials *)
Lemma comb_sum (a g : nat -> R) q : comb a g q = \sum_(j < q) a j * g j.
Proof. by elim: q => [|q IH] /=; [rewrite big_ord0|rewrite big_ord_recr /= IH]. Qed.

Lemma nth_ (T : Type) (x : T) l i : List.nth i l x = nth x l i.
Proof. by elim: l i => [|y l IH] [|i] /=. Qed.

Lemma dual cs phi r d : switching cs phi -> List.length cs = d -> Peano.le (List.length r) d -> forall ks x, List.length ks = d ->
  (forall i c, List.nth_error cs i = Some c -> Rminus (c_val c) (List.nth i ks R0) = Derive_n (poly_at r) (c_ord c) (c_pt c)) ->
  switch phi cs ks 0 x = peval r x.
Proof.
move=> [Hp [Hlen Hdel]] Hd Hr ks x Hk Hv.
pose S : 'M[R]_d := \matrix_(i, j) peval (pdern (c_ord (List.nth i cs c0)) (mono j)) (c_pt (List.nth i cs c0)).
pose P : 'M[R]_d := \matrix_(j, k) List.nth j (List.nth k phi [::]) R0.
have HS (i : 'I_d) l : Peano.le (List.length l) d ->
    Derive_n (poly_at l) (c_ord (List.nth i cs c0)) (c_pt (List.nth i cs c0)) = \sum_(j < d) S i j * List.nth j l R0.
  by move=> Hl; rewrite Derive_n_poly_at (pdern_comb _ _ _ _ Hl) comb_sum; apply: eq_bigr => j _; rewrite mxE mulrC.
have Hcs (i : 'I_d) : List.nth_error cs i = Some (List.nth i cs c0).
  by apply: List.nth_error_nth'; rewrite Hd; apply/ltP; exact: ltn_ord.
have Hph (i : 'I_d) : List.nth_error phi i = Some (List.nth i phi [::]).
  by apply: List.nth_error_nth'; rewrite Hp Hd; apply/ltP; exact: ltn_ord.
have Hln (k : 'I_d) : Peano.le (List.length (List.nth k phi [::])) d.
  by have := Hlen _ (List.nth_error_In _ _ (Hph k)); rewrite Hd.
have HSP : S *m P = 1%:M.
  apply/matrixP=> i k; rewrite mxE [RHS]mxE.
  have -> : \sum_j S i j * P j k = Derive_n (poly_at (List.nth k phi [::])) (c_ord (List.nth i cs c0)) (c_pt (List.nth i cs c0)).
    by rewrite HS; [apply: eq_bigr => j _; rewrite [P j k]mxE|exact: Hln].
  rewrite (Hdel _ _ _ _ (Hcs i) (Hph k)).
  case: Nat.eqb_spec => [/ord_inj ->|Hne]; first by rewrite eqxx.
  by case: eqP => [E|_] //; case: Hne; rewrite E.
have HPS := mulmx1C HSP.
rewrite (switch_comb _ _ _ _ _ d) ?Hp // comb_sum.
rewrite (peval_comb _ _ _ Hr) comb_sum.
have Hc (j : 'I_d) : List.nth j r R0 = \sum_(k < d) P j k * (Rminus (c_val (List.nth k cs c0)) (List.nth k ks R0)).
  transitivity ((P *m S *m (\col_i List.nth i r R0)) j 0); first by rewrite HPS mul1mx mxE.
  rewrite -mulmxA mxE; apply: eq_bigr => k _; congr (_ * _).
  rewrite (Hv _ _ (Hcs k)) HS // mxE; apply: eq_bigr => i _.
  by rewrite [_ i 0]mxE.
transitivity (\sum_(j < d) \sum_(k < d) P j k * (Rminus (c_val (List.nth k cs c0)) (List.nth k ks R0)) * pow x j); last first.
  by apply: eq_bigr => j _; rewrite Hc mulr_suml.
rewrite exchange_big; apply: eq_bigr => k _ /=.
rewrite (peval_comb _ _ d (Hln k)).
rewrite comb_sum mulr_sumr; apply: eq_bigr => j _; rewrite [P j k]mxE.
by rewrite mulrA [_ * List.nth _ _ _]mulrC.
Qed.

(** the residual function handed to the solver is that of the script *)
Definition runs_script (Ar : Type) N n jvp (u : utfc (T:=R)) cs phi co q (args : seq (value R_realFieldType Ar n))
    (res : seq (value R_realFieldType Ar n) -> 'cV[R]_N) : Prop :=
  forall xi : 'cV[R]_n, residual jvp u cs phi co q (fun_of xi) = Some [seq res (Unk xi :: args) i 0 | i <- enum 'I_N].
(** a Jacobian supplied by the caller, if any, is right *)
Definition right_jac (F : realFieldType) (Ar : Type) N n (J : option (seq (value F Ar n) -> 'M[F]_(N, n))) (args : seq (value F Ar n))
    (res : seq (value F Ar n) -> 'cV[F]_N) : Prop :=
  forall j, J = Some j -> forall x dx, res (Unk (x + dx) :: args) = res (Unk x :: args) + j (Unk x :: args) *m dx.
(** [y] is the curve of the expression with the coefficients [xi], its derivatives included *)
Definition curve n jvp (u : utfc (T:=R)) cs phi (xi : 'cV[R]_n) (y : R -> R) : Prop :=
  forall e t, expr jvp u cs phi [:: t] e (fun_of xi) = Some [:: Derive_n y e t].

(** the solvers, for matrices over any field *)
Section Solvers.
Variables (F : realFieldType) (Ar : Type) (N n : nat).
Variables (jac : (seq (value F Ar n) -> 'cV[F]_N) -> seq (value F Ar n) -> 'M[F]_(N, n)).
Variables (res : seq (value F Ar n) -> 'cV[F]_N) (args : seq (value F Ar n)).
Variables (J : option (seq (value F Ar n) -> 'M[F]_(N, n))) (z : 'cV[F]_n) (consts : seq nat) (s : method_) (timer : bool).
Variables (A : 'M[F]_(N, n)) (c : 'cV[F]_N).
Hypotheses (Hjac : differentiates jac) (Hr : res_is res args A c) (HJ : right_jac J args res) (Hs : valid_method s).
Hypotheses (Ha : ascending consts) (Hc : List.Forall (fun k => Peano.le 1 k /\ Peano.le k (length args)) consts).
Lemma user_jac_of : user_jac J args A.
Proof.
move=> j Ej x; apply/matrixP=> i k.
have := HJ Ej x (delta_mx k 0); rewrite !Hr /affine mulmxDr.
rewrite -!addrA => /addrI; rewrite addrC => /addrI E.
by have := congr1 (fun M : 'cV[F]_N => M i 0) E; rewrite -!colE !mxE.
Qed.
Lemma ls_R : exists xi, vLS jac (Unk z) res args consts J s timer = Some (Unk xi, List.rev consts) /\ minimises (affine A c) xi.
Proof.
have [xi [E [Hmin _]]] := C38_least_squares z timer Hjac Hr user_jac_of Hs Ha Hc.
by exists xi.
Qed.
Lemma nlls_R printOut cond (tol : F) maxIter fuel : (0 < n)%N -> 0 <= tol -> tol < 1 -> Z.le 1 maxIter -> Z.le maxIter (Z.of_nat fuel) ->
  tol < v_maxabs (res (Unk z :: args)) ->
  exists xi k out, fst (vNLLS jac fuel (Unk z) res args consts J cond None tol maxIter s timer printOut)
      = NReturns (NResult (Unk xi) (Z.of_nat k) out) /\ (0 < k <= 2)%N /\ minimises (affine A c) xi.
Proof.
move=> Hn Ht0 Ht1 HM1 HM2 Hr0.
have Hf1 : Peano.le 1 fuel by lia.
have [xi [k [out [E [Hk [Hpos Hsol]]]]]] := @C42_affine_one_step _ _ _ _ jac res args _ _ J z consts s timer printOut cond tol maxIter fuel
  Hjac Hr user_jac_of Hs Ha Hc Ht0 HM2 Hf1.
have Hr1 : tol < v_maxabs (affine A c z) by rewrite -Hr; exact: Hr0.
have Hk0 : (0 < k)%N := Hpos Hn Ht1 HM1 Hr1.
have [Hmin _] := Hsol Hk0.
exists xi, k, out; split; first exact: E.
by split; [rewrite Hk0|exact: Hmin].
Qed.
End Solvers.

Section Ode.
Variables (Ar : Type) (jvp : (R -> R) -> R -> R -> R) (be : backend) (f : fam) (N deg : nat).
Variables (x0 xf : R) (w b : seq R) (u : utfc (T:=R)) (cs : seq cond) (phi co : seq (seq R)) (q : seq R).
Local Notation d := (List.length cs).
Local Notation n := (Nat.sub (Nat.add deg 1%N) (List.length cs)).
Hypothesis Hj : jvp_ok jvp.
Hypothesis Hf : f <> FS.
Hypothesis HN : Peano.le 2 N.
Hypothesis Hx : Rlt x0 xf.
Hypothesis Hu : mk be (UB f) N (NcInt (Z.of_nat d)) deg x0 xf w b = Some u.
Hypothesis Hphi : switching cs phi.
Local Notation poly l y := (Peano.le (List.length l) (Nat.add deg 1) /\ forall t, y t = poly_at l t).

Lemma fun_of_row m (x : 'cV[R]_m) (r : seq R) : List.length r = m -> row_comb (fun_of x) r = \sum_(j < m) nth 0 r j * x j 0.
Proof. by move=> Hr; rewrite (row_comb_sum _ Hr); apply: eq_bigr => j _; rewrite fun_of_ord. Qed.

Lemma nth_map_real (h : R -> R) (xs : seq R) i : (i < size xs)%N -> nth 0 (List.map h xs) i = h (nth 0 xs i).
Proof. by elim: xs i => [|x xs IH] [|i] //= Hi; apply: IH. Qed.

Lemma misfit_sum y (xs : seq R) m : size xs = m -> misfit co q y xs = \sum_(i < m) (Rminus (ode co y (nth 0 xs i)) (poly_at q (nth 0 xs i))) ^+ 2.
Proof.
elim: xs m => [|x xs IH] [|m] //= Hs; first by rewrite big_ord0.
rewrite big_ord_recl /= (IH m); last by case: Hs.
by congr (_ + _); rewrite Rmult_1_r expr2.
Qed.

Lemma script_facts : exists (A : 'M[R]_(N, n)) (c : 'cV[R]_N),
  (forall args res, @runs_script Ar N n jvp u cs phi co q args res -> res_is res args A c) /\
  size (u_x u) = N /\ List.NoDup (u_x u) /\ Peano.le d deg /\
  (forall xi : 'cV[R]_n, exists y l, curve jvp u cs phi xi y /\ poly l y /\ (forall k, List.In k cs -> meets y k) /\
     forall i : 'I_N, affine A c xi i 0 = Rminus (ode co y (nth 0 (u_x u) i)) (poly_at q (nth 0 (u_x u) i))) /\
  (forall p, Peano.le (List.length p) (Nat.add deg 1) -> (forall k, List.In k cs -> meets (poly_at p) k) ->
     exists xi : 'cV[R]_n, curve jvp u cs phi xi (poly_at p)).
Proof.
have [h [HH [Hl [Hd [Hpol [Hspan [Hlen [Hnd Hdd]]]]]]]] := rows0 _ Hj _ _ _ _ _ _ _ _ _ _ Hu Hf HN Hx.
have Hsz : size (u_x u) = N by rewrite -Hlen.
pose F x := @res_aff n h cs phi Hl co q x.
pose A : 'M[R]_(N, n) := \matrix_(i, j) nth 0 (projT1 (F (nth 0 (u_x u) i))) j.
pose c : 'cV[R]_N := \col_i sval (projT2 (F (nth 0 (u_x u) i))).
have HA xi (i : 'I_N) : affine A c xi i 0 = Rminus (L h cs phi 0 co (fun_of xi) (nth 0 (u_x u) i)) (poly_at q (nth 0 (u_x u) i)).
  have [Hr E] := svalP (projT2 (F (nth 0 (u_x u) i))).
  rewrite /affine mxE [c i 0]mxE E (fun_of_row _ Hr) mxE; congr (_ + _).
  by apply: eq_bigr => j _; rewrite mxE.
exists A, c; split.
  move=> args res Hrun xi; move: (Hrun xi); rewrite (residual_ok _ _ _ _ _ _ HH) => -[E].
  apply/matrixP=> i j; rewrite ord1 HA.
  have := congr1 (fun s => nth 0 s i) E; rewrite nth_map_real ?Hsz //.
  by rewrite (nth_map i) ?size_enum_ord // nth_ord_enum => ->.
split=> //; split=> //; split=> //.
have Hcurve a e t : expr jvp u cs phi [:: t] e a = Some [:: Derive_n (Y h cs phi a 0) e t].
  by rewrite (expr_ok _ _ _ _ _ _ HH) /= (is_derive_n_unique _ _ _ _ (Y_derive_n _ _ _ Hd a e t)).
split.
  move=> xi; exists (Y h cs phi (fun_of xi) 0).
  have [l1 [Hl1 E1]] := Hpol (fun_of xi).
  have [l2 [Hl2 E2]] := switch_poly phi d (proj1 (proj2 Hphi)) cs (List.map (K h (fun_of xi)) cs).
  exists (padd l1 l2); split; first by move=> e t; exact: Hcurve.
  split; first split.
  - rewrite padd_length; move: (length cs) Hl1 Hl2 Hdd => dd; lia.
  - by move=> t; rewrite /Y E1 E2 poly_at_peval peval_padd.
  split; first by move=> k Hk; exact: (Y_meets _ _ _ Hd _ Hphi _ Hk).
  by move=> i; rewrite HA (L_ode _ _ _ Hd).
move=> p Hp Hm.
have [a [r [Hr E]]] := Hspan p Hp.
pose xi : 'cV[R]_n := \col_j a j.
have Ea e t : row_comb (fun_of xi) (h e t) = row_comb a (h e t).
  rewrite (fun_of_row _ (Hl e t)) (row_comb_sum _ (Hl e t)).
  by apply: eq_bigr => j _; rewrite mxE.
exists xi => e t; rewrite Hcurve; congr (Some [:: _]); apply: Derive_n_ext => s.
rewrite /Y poly_at_peval E Ea; congr Rplus.
apply: (dual Hphi) => //; first by rewrite List.map_length.
move=> i k Hk; rewrite (List.nth_indep _ R0 (K h (fun_of xi) c0)); last first.
  by rewrite List.map_length; apply/List.nth_error_Some; rewrite Hk.
rewrite List.map_nth (List.nth_error_nth _ _ _ Hk) /K Ea.
have := Hm k (List.nth_error_In _ _ Hk); rewrite /meets => <-.
rewrite (Derive_n_ext (poly_at p) (fun s => Rplus (row_comb a (h 0%N s)) (poly_at r s))); last by move=> s'; rewrite !poly_at_peval.
rewrite (@is_derive_n_unique _ _ _ (Rplus (row_comb a (h (c_ord k) (c_pt k))) (peval (pdern (c_ord k) r) (c_pt k)))); last first.
  apply: (is_derive_n_ext (fun s => Rplus (row_comb a (h 0%N s)) (peval (pdern 0 r) s))); first by move=> s'; rewrite poly_at_peval.
  apply: (is_derive_n_chain (fun e s => Rplus (row_comb a (h e s)) (peval (pdern e r) s))) => e' s'.
  by apply: (is_derive_plus (fun s => row_comb a (h e' s)) (peval (pdern e' r))); [exact: Hd|exact: is_derive_peval].
by rewrite Derive_n_poly_at; lra.
Qed.

Lemma norm2_misfit (A : 'M[R]_(N, n)) c xi y : size (u_x u) = N ->
  (forall i : 'I_N, affine A c xi i 0 = Rminus (ode co y (nth 0 (u_x u) i)) (poly_at q (nth 0 (u_x u) i))) ->
  norm2 (affine A c xi) = misfit co q y (u_x u).
Proof. by move=> Hs H; rewrite (misfit_sum _ Hs); apply: eq_bigr => i _; rewrite H. Qed.
Lemma misfit_ge0 y xs : Rle 0 (misfit co q y xs).
Proof. by elim: xs => [|x xs IH] /=; [exact: Rle_refl|apply: Rplus_le_le_0_compat => //; exact: pow2_ge_0]. Qed.
Lemma misfit_0 y xs : (forall x, List.In x xs -> ode co y x = poly_at q x) <-> misfit co q y xs = R0.
Proof.
elim: xs => [|x xs [IH1 IH2]] /=; first by split.
have H0 := misfit_ge0 y xs; have H1 := pow2_ge_0 (Rminus (ode co y x) (poly_at q x)).
split=> [H|H].
  rewrite (H x (or_introl erefl)) IH1; last by move=> z Hz; apply: H; right.
  by rewrite Rminus_eq_0 Rmult_0_l Rplus_0_l.
move: H1 H; rewrite /= => H1 H.
have E1 : Rmult (Rminus (ode co y x) (poly_at q x)) (Rmult (Rminus (ode co y x) (poly_at q x)) R1) = R0 by lra.
have E2 : misfit co q y xs = R0 by lra.
move=> z [<-|Hz]; last exact: IH2.
have : Rminus (ode co y x) (poly_at q x) = R0 by case: (Rmult_integral _ _ E1) => // E3; case: (Rmult_integral _ _ E3) => // E4; lra.
lra.
Qed.
Lemma curve_ext (xi : 'cV[R]_n) y y' : curve jvp u cs phi xi y -> curve jvp u cs phi xi y' -> forall t, y t = y' t.
Proof. by move=> H H' t; have := H 0%N t; rewrite (H' 0%N t) => -[/= ->]. Qed.
Lemma ode_eq y y' t : (forall s, y s = y' s) -> ode co y t = ode co y' t.
Proof. by move=> H; apply: ode_ext. Qed.

(** a minimiser fits the equation best among the small polynomials that meet the conditions *)
Lemma best (A : 'M[R]_(N, n)) c xi y :
  (forall xi : 'cV[R]_n, exists y l, curve jvp u cs phi xi y /\ poly l y /\ (forall k, List.In k cs -> meets y k) /\
     forall i : 'I_N, affine A c xi i 0 = Rminus (ode co y (nth 0 (u_x u) i)) (poly_at q (nth 0 (u_x u) i))) ->
  (forall p, Peano.le (List.length p) (Nat.add deg 1) -> (forall k, List.In k cs -> meets (poly_at p) k) ->
     exists xi : 'cV[R]_n, curve jvp u cs phi xi (poly_at p)) ->
  size (u_x u) = N -> minimises (affine A c) xi -> curve jvp u cs phi xi y ->
  forall p, Peano.le (List.length p) (Nat.add deg 1) -> (forall k, List.In k cs -> meets (poly_at p) k) ->
  Rle (misfit co q y (u_x u)) (misfit co q (poly_at p) (u_x u)).
Proof.
move=> Hy Hp Hs Hm Hc p Hlp Hmp.
have [xp Hxp] := Hp p Hlp Hmp.
have mis xj z : curve jvp u cs phi xj z -> norm2 (affine A c xj) = misfit co q z (u_x u).
  move=> Hz; have [yj [lj [Hj' [_ [_ Hi]]]]] := Hy xj.
  by apply: norm2_misfit => // i; rewrite Hi (ode_eq _ (curve_ext Hz Hj')).
by rewrite -(mis xi y Hc) -(mis _ _ Hxp); apply/RlebP; exact: (Hm xp).
Qed.

(** exact solutions: at the points, and everywhere if there are enough points *)
Lemma everywhere y l : poly l y -> size (u_x u) = N -> List.NoDup (u_x u) -> (forall x, List.In x (u_x u) -> ode co y x = poly_at q x) ->
  (forall k c, List.nth_error co k = Some c -> Peano.le (Nat.add (List.length c) deg) (Nat.add N k)) -> Peano.le (List.length q) N ->
  forall t, ode co y t = poly_at q t.
Proof.
move=> [Hl Ey] Hs Hnd Hx' Hc Hq t.
have [|r [Hr Er]] := @ode_poly N (Nat.add deg 1) l Hl co 0%N.
  by move=> k c /Hc; lia.
have Ey' s : y s = peval l s by rewrite Ey poly_at_peval.
have Ed s : peval (padd r (pscale (Ropp R1) q)) s = Rminus (ode co y s) (poly_at q s).
  by rewrite /ode (Er y Ey') peval_padd peval_pscale poly_at_peval; lra.
have := @zero_everywhere (padd r (pscale (Ropp R1) q)) (u_x u) Hnd _ _ t; rewrite Ed => H.
suff : Rminus (ode co y t) (poly_at q t) = R0 by lra.
apply: H.
- by rewrite padd_length pscale_length; have -> : List.length (u_x u) = N; [exact: Hs|lia].
- by move=> s Hs'; rewrite Ed (Hx' s Hs'); lra.
Qed.
End Ode.

(** ** C92 *)
(** Whatever the coefficients, the expression is a polynomial of the basis' degree that meets the
    conditions exactly, and every such polynomial is the expression for some coefficients. *)
Theorem C92_conditions : forall jvp be f N deg x0 xf w b u cs phi,
  jvp_ok jvp -> f <> FS -> Peano.le 2 N -> Rlt x0 xf ->
  mk be (UB f) N (NcInt (Z.of_nat (List.length cs))) deg x0 xf w b = Some u -> switching cs phi ->
  let n := Nat.sub (Nat.add deg 1%N) (List.length cs) in
  (forall xi : 'cV[R]_n, exists y l, curve jvp u cs phi xi y /\ Peano.le (List.length l) (Nat.add deg 1) /\ (forall t, y t = poly_at l t) /\
     forall k, List.In k cs -> meets y k) /\
  (forall l, Peano.le (List.length l) (Nat.add deg 1) -> (forall k, List.In k cs -> meets (poly_at l) k) ->
     exists xi : 'cV[R]_n, curve jvp u cs phi xi (poly_at l)).
Proof.
move=> jvp be f N deg x0 xf w b u cs phi Hj Hf HN Hx Hu Hphi n.
have [A [c [_ [_ [_ [_ [H1 H2]]]]]]] := @script_facts unit jvp be f N deg x0 xf w b u cs phi [::] [::] Hj Hf HN Hx Hu Hphi.
split; last exact: H2.
move=> xi; have [y [l [Hc [[Hl E] [Hm _]]]]] := H1 xi.
by exists y, l; do 3!(split; first by []).
Qed.
Print Assumptions C92_conditions.

(** LS gives the polynomial that fits the equation best at the points among all polynomials of the
    basis' degree that meet the conditions.  An exact solution of that degree, if there is one, makes
    the fit exact at the points, and with enough points everywhere. *)
Theorem C92_ls : forall (Ar : Type) jvp be f N deg x0 xf w b u cs phi co q,
  jvp_ok jvp -> f <> FS -> Peano.le 2 N -> Rlt x0 xf ->
  mk be (UB f) N (NcInt (Z.of_nat (List.length cs))) deg x0 xf w b = Some u -> switching cs phi ->
  let n := Nat.sub (Nat.add deg 1%N) (List.length cs) in
  forall (jac : (seq (value R_realFieldType Ar n) -> 'cV[R]_N) -> seq (value R_realFieldType Ar n) -> 'M[R]_(N, n))
    (res : seq (value R_realFieldType Ar n) -> 'cV[R]_N) args J z consts s timer,
  differentiates jac -> runs_script jvp u cs phi co q args res -> right_jac J args res -> valid_method s ->
  ascending consts -> List.Forall (fun k => Peano.le 1 k /\ Peano.le k (length args)) consts ->
  exists xi c y l, vLS jac (Unk z) res args consts J s timer = Some (Unk xi, c) /\
    curve jvp u cs phi xi y /\ Peano.le (List.length l) (Nat.add deg 1) /\ (forall t, y t = poly_at l t) /\
    (forall k, List.In k cs -> meets y k) /\
    (forall p, Peano.le (List.length p) (Nat.add deg 1) -> (forall k, List.In k cs -> meets (poly_at p) k) ->
       Rle (misfit co q y (u_x u)) (misfit co q (poly_at p) (u_x u))) /\
    ((exists p, Peano.le (List.length p) (Nat.add deg 1) /\ (forall k, List.In k cs -> meets (poly_at p) k) /\
        forall t, List.In t (u_x u) -> ode co (poly_at p) t = poly_at q t) ->
     (forall t, List.In t (u_x u) -> ode co y t = poly_at q t) /\
     ((forall k c, List.nth_error co k = Some c -> Peano.le (Nat.add (List.length c) deg) (Nat.add N k)) -> Peano.le (List.length q) N ->
      forall t, ode co y t = poly_at q t)).
Proof.
move=> Ar jvp be f N deg x0 xf w b u cs phi co q Hj Hf HN Hx Hu Hphi n jac res args J z consts s timer Hjac Hrun HJ Hs Ha Hc.
have [A [c [Hres [Hsz [Hnd [_ [H1 H2]]]]]]] := @script_facts Ar jvp be f N deg x0 xf w b u cs phi co q Hj Hf HN Hx Hu Hphi.
have Hr := Hres args res Hrun.
have [xi [E Hmin]] := ls_R z timer Hjac Hr HJ Hs Ha Hc.
have [y [l [Hcu [[Hl Ey] [Hm _]]]]] := H1 xi.
have Hbest := best H1 H2 Hsz Hmin Hcu.
exists xi, (List.rev consts), y, l.
split; first exact: E.
split; first exact: Hcu.
split; first exact: Hl.
split; first exact: Ey.
split; first exact: Hm.
split; first exact: Hbest.
move=> [p [Hp1 [Hp2 /misfit_0 Hp3]]].
have Hpts : forall t, List.In t (u_x u) -> ode co y t = poly_at q t.
  by apply/misfit_0; have := Hbest p Hp1 Hp2; have := misfit_ge0 co q y (u_x u); rewrite Hp3; lra.
split; first exact: Hpts.
move=> Hco Hq t; exact: (everywhere HN (conj Hl Ey) Hsz Hnd Hpts Hco Hq).
Qed.
Print Assumptions C92_ls.

(** NLLS, started where the residual is above the tolerance, gives as good a fit. *)
Theorem C92_nlls : forall (Ar : Type) jvp be f N deg x0 xf w b u cs phi co q,
  jvp_ok jvp -> f <> FS -> Peano.le 2 N -> Rlt x0 xf ->
  mk be (UB f) N (NcInt (Z.of_nat (List.length cs))) deg x0 xf w b = Some u -> switching cs phi ->
  let n := Nat.sub (Nat.add deg 1%N) (List.length cs) in
  forall (jac : (seq (value R_realFieldType Ar n) -> 'cV[R]_N) -> seq (value R_realFieldType Ar n) -> 'M[R]_(N, n))
    (res : seq (value R_realFieldType Ar n) -> 'cV[R]_N) args J z consts s timer printOut cond tol maxIter fuel,
  differentiates jac -> runs_script jvp u cs phi co q args res -> right_jac J args res -> valid_method s ->
  ascending consts -> List.Forall (fun k => Peano.le 1 k /\ Peano.le k (length args)) consts ->
  0 <= tol -> tol < 1 -> Z.le 1 maxIter -> Z.le maxIter (Z.of_nat fuel) -> tol < v_maxabs (res (Unk z :: args)) ->
  exists xi k out y, fst (vNLLS jac fuel (Unk z) res args consts J cond None tol maxIter s timer printOut)
      = NReturns (NResult (Unk xi) (Z.of_nat k) out) /\ (0 < k <= 2)%N /\
    curve jvp u cs phi xi y /\ (forall k, List.In k cs -> meets y k) /\
    (forall p, Peano.le (List.length p) (Nat.add deg 1) -> (forall k, List.In k cs -> meets (poly_at p) k) ->
       Rle (misfit co q y (u_x u)) (misfit co q (poly_at p) (u_x u))) /\
    ((exists p, Peano.le (List.length p) (Nat.add deg 1) /\ (forall k, List.In k cs -> meets (poly_at p) k) /\
        forall t, List.In t (u_x u) -> ode co (poly_at p) t = poly_at q t) ->
     (forall k c, List.nth_error co k = Some c -> Peano.le (Nat.add (List.length c) deg) (Nat.add N k)) -> Peano.le (List.length q) N ->
     forall t, ode co y t = poly_at q t).
Proof.
move=> Ar jvp be f N deg x0 xf w b u cs phi co q Hj Hf HN Hx Hu Hphi n jac res args J z consts s timer printOut cond tol maxIter fuel
  Hjac Hrun HJ Hs Ha Hc Ht0 Ht1 HM1 HM2 Hr0.
have [A [c [Hres [Hsz [Hnd [Hdd [H1 H2]]]]]]] := @script_facts Ar jvp be f N deg x0 xf w b u cs phi co q Hj Hf HN Hx Hu Hphi.
have Hr := Hres args res Hrun.
have Hn : (0 < n)%N by apply/ltP; rewrite /n; move: (List.length cs) Hdd => dd; lia.
have [xi [k [out [E [Hk Hmin]]]]] := nlls_R timer Hjac Hr HJ Hs Ha Hc printOut cond Hn Ht0 Ht1 HM1 HM2 Hr0.
have [y [l [Hcu [[Hl Ey] [Hm _]]]]] := H1 xi.
have Hbest := best H1 H2 Hsz Hmin Hcu.
exists xi, k, out, y; split; first exact: E.
split; first exact: Hk.
split; first exact: Hcu.
split; first exact: Hm.
split; first exact: Hbest.
move=> [p [Hp1 [Hp2 /misfit_0 Hp3]]] Hco Hq t.
have Hpts : forall t, List.In t (u_x u) -> ode co y t = poly_at q t.
  by apply/misfit_0; have := Hbest p Hp1 Hp2; have := misfit_ge0 co q y (u_x u); rewrite Hp3; lra.
exact: (everywhere HN (conj Hl Ey) Hsz Hnd Hpts Hco Hq).
Qed.
Print Assumptions C92_nlls.

(** An initial value problem whose leading coefficient does not vanish at the initial point: LS gives
    its polynomial solution itself. *)
Theorem C92_initial_value : forall (Ar : Type) jvp be f N deg x0 xf w b u p0 v d phi co q sol,
  jvp_ok jvp -> f <> FS -> Peano.le 2 N -> Rlt x0 xf ->
  mk be (UB f) N (NcInt (Z.of_nat d)) deg x0 xf w b = Some u -> switching (initial p0 v d) phi ->
  List.length co = S d -> poly_at (List.last co [::]) p0 <> R0 ->
  Peano.le (List.length sol) (Nat.add deg 1) -> (forall k, Peano.lt k d -> Derive_n (poly_at sol) k p0 = v k) ->
  (forall t, ode co (poly_at sol) t = poly_at q t) ->
  (forall k c, List.nth_error co k = Some c -> Peano.le (Nat.add (List.length c) deg) (Nat.add N k)) -> Peano.le (List.length q) N ->
  let n := Nat.sub (Nat.add deg 1%N) d in
  forall (jac : (seq (value R_realFieldType Ar n) -> 'cV[R]_N) -> seq (value R_realFieldType Ar n) -> 'M[R]_(N, n))
    (res : seq (value R_realFieldType Ar n) -> 'cV[R]_N) args J z consts s timer,
  differentiates jac -> runs_script jvp u (initial p0 v d) phi co q args res -> right_jac J args res -> valid_method s ->
  ascending consts -> List.Forall (fun k => Peano.le 1 k /\ Peano.le k (length args)) consts ->
  exists xi c, vLS jac (Unk z) res args consts J s timer = Some (Unk xi, c) /\ curve jvp u (initial p0 v d) phi xi (poly_at sol).
Proof.
move=> Ar jvp be f N deg x0 xf w b u p0 v d phi co q sol Hj Hf HN Hx Hu Hphi Hco Hlead Hsol Hiv Hode Hlen Hq n.
have Ed : List.length (initial p0 v d) = d by rewrite /initial List.map_length List.seq_length.
have Hin k : Peano.lt k d -> List.In (Cond k p0 (v k)) (initial p0 v d).
  by move=> Hk; apply/List.in_map_iff; exists k; split=> //; apply/List.in_seq; lia.
move: Hin Hphi Ed; move Ecs : (initial p0 v d) => cs Hin Hphi Ed; subst d.
move=> jac res args J z consts s timer Hjac Hrun HJ Hs Ha Hc.
have [xi [c [y [l [E [Hcu [Hl [Ey [Hm [_ Hex]]]]]]]]]] := @C92_ls Ar jvp be f N deg x0 xf w b u cs phi co q Hj Hf HN Hx Hu Hphi
  jac res args J z consts s timer Hjac Hrun HJ Hs Ha Hc.
exists xi, c; split; first exact: E.
have Hms : forall k, List.In k cs -> meets (poly_at sol) k.
  move=> k; rewrite -Ecs => /List.in_map_iff [i [<- /List.in_seq Hi]]; rewrite /meets /=; apply: Hiv; lia.
have {Hex} [|_ Hev] := Hex; first by exists sol.
have {}Hev := Hev Hlen Hq.
suff Hys t : y t = poly_at sol t by move=> e t; rewrite Hcu; congr (Some [:: _]); apply: Derive_n_ext.
pose dl := padd l (pscale (Ropp R1) sol).
have Edl s' : peval dl s' = Rminus (y s') (poly_at sol s') by rewrite /dl peval_padd peval_pscale Ey !poly_at_peval; lra.
have Hdn e s' : peval (pdern e dl) s' = Rminus (Derive_n y e s') (Derive_n (poly_at sol) e s').
  by rewrite /dl pdern_sub Derive_n_poly_at (Derive_n_of y l) // => s''; rewrite Ey poly_at_peval.
have : peval dl t = R0.
  apply: (@ivp_unique p0 (length cs) co dl Hco Hlead).
  - move=> k Hk; rewrite Hdn (Hiv k Hk).
    by have := Hm _ (Hin k Hk); rewrite /meets /= => ->; lra.
  - move=> s'; have -> : ode_from 0 co (peval dl) s' = Rminus (ode co y s') (ode co (poly_at sol) s'); last by rewrite Hev Hode; lra.
    rewrite /ode; elim: (co) 0%N => [|a co' IH] e /=; first by lra.
    by rewrite IH Derive_n_peval Hdn; lra.
by rewrite Edl; lra.
Qed.
Print Assumptions C92_initial_value.

(** y' + t y = t^3 + 2 t, y(0) = 0: LS with the functions T1, T2 and four points returns t^2 *)
Example C92_case : exists u xi c,
  mk Py (UB CP) 4 (NcInt (Z.of_nat 1)) 2 R0 R1 [::] [::] = Some u /\
  let cs := initial R0 (fun _ => R0) 1 in let phi := [:: [:: R1]] in
  let co := [:: [:: R0; R1]; [:: R1]] in let q := [:: R0; INR 2; R0; R1] in
  exists res : seq (value R_realFieldType unit 2) -> 'cV[R]_4, runs_script rjvp u cs phi co q [:: Arg tt] res /\
  vLS (@diff_jac _ _ 4 2) (Unk 0) res [:: Arg tt] [:: 1%N] None Lstsq true = Some (Unk xi, c) /\
  curve rjvp u cs phi xi (poly_at [:: R0; R0; R1]).
Proof.
have [||||u Hu] := @mk_some Py (UB CP) 4 (NcInt (Z.of_nat 1)) [:: Z.of_nat 0] 2 R0 R1 [::] [::] erefl.
- by rewrite /=; lia.
- by move=> i [<-|[]]; lia.
- by left.
- by lia.
have Hx : Rlt R0 R1 by lra.
pose cs := initial R0 (fun _ => R0) 1; pose phi := [:: [:: R1]].
pose co := [:: [:: R0; R1]; [:: R1]]; pose q := [:: R0; INR 2; R0; R1].
have Hphi : switching cs phi.
  split=> //; split; first by move=> p [<-|[]] /=; lia.
  move=> [|i] [|j] k p /=.
  - by move=> [<-] [<-]; rewrite Derive_n_poly_at /=; lra.
  - by case: j.
  - by case: i.
  - by case: i.
have H2 : Peano.le 2 4 by lia.
have [A [c0' [_ [Hsz [_ [_ [H1 _]]]]]]] := @script_facts unit rjvp Py CP 4 2 R0 R1 [::] [::] u cs phi co q rjvp_ok ltac:(discriminate) H2 Hx Hu Hphi.
have [h [HH _]] := rows0 _ rjvp_ok _ _ _ _ _ _ _ _ _ _ Hu ltac:(discriminate) H2 Hx.
pose res (l : seq (value R_realFieldType unit 2)) : 'cV[R]_4 :=
  if l is Unk x :: _ then \col_i nth 0 (odflt [::] (residual rjvp u cs phi co q (fun_of x))) i else 0.
have Hrun : runs_script rjvp u cs phi co q [:: Arg tt] res.
  move=> xi; rewrite (residual_ok _ _ _ _ _ _ HH); congr Some.
  apply: (@eq_from_nth _ 0); first by rewrite [RHS]size_map size_enum_ord -[RHS]Hsz; exact: List.map_length.
  move=> i; rewrite -[size _]/(List.length _) List.map_length => Hi.
  have Hi4 : (i < 4)%N by rewrite -Hsz.
  rewrite (nth_map (Ordinal Hi4)) ?size_enum_ord // /res mxE (residual_ok _ _ _ _ _ _ HH) /=.
  by rewrite nth_enum_ord.
have Hne : CP <> FS by [].
have Hlead : poly_at (List.last co [::]) R0 <> R0 by rewrite /=; apply: Rgt_not_eq; lra.
have Hls : Peano.le (List.length [:: R0; R0; R1]) (Nat.add 2 1) by rewrite /=; lia.
have Hiv k : Peano.lt k 1 -> Derive_n (poly_at [:: R0; R0; R1]) k R0 = R0.
  by move=> Hk; have -> : k = 0%N by [lia]; rewrite /=; lra.
have Hode t : ode co (poly_at [:: R0; R0; R1]) t = poly_at q t.
  have -> y : ode co y t = Rplus (Rmult (poly_at [:: R0; R1] t) (Derive_n y 0 t)) (Rplus (Rmult (poly_at [:: R1] t) (Derive_n y 1 t)) R0) by [].
  by rewrite !Derive_n_poly_at /=; lra.
have Hlen k c : List.nth_error co k = Some c -> Peano.le (Nat.add (List.length c) 2) (Nat.add 4 k).
  by case: k => [|[|[|k]]] //= [<-] /=; lia.
have Hq : Peano.le (List.length q) 4 by rewrite /=; lia.
have Hj0 : right_jac None [:: Arg tt] res by [].
have Hv : valid_method Lstsq by [].
have Hasc : ascending [:: 1%N] by repeat constructor.
have Hfa : List.Forall (fun k => Peano.le 1 k /\ Peano.le k (length [:: @Arg R_realFieldType unit 2 tt])) [:: 1%N].
  by constructor; [split; apply/leP|constructor].
have [xi [c [E Hc]]] := @C92_initial_value unit rjvp Py CP 4 2 R0 R1 [::] [::] u R0 (fun _ => R0) 1 phi co q [:: R0; R0; R1] rjvp_ok Hne H2 Hx Hu Hphi
  erefl Hlead Hls (fun k Hk => Hiv k Hk) Hode Hlen Hq (@diff_jac _ _ 4 2) res [:: Arg tt] None 0 [:: 1%N] Lstsq true (@diff_jac_ok _ _ _ _) Hrun Hj0 Hv Hasc Hfa.
by exists u, xi, c; split=> //; exists res.
Qed.
