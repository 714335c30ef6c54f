(** C116: nonlinear partial differential equations of any form, solved with a constrained expression in
    several variables and NLLS. *)
From Coq Require Import ZArith Lia Reals Lra.
From Coquelicot Require Import Coquelicot.
From mathcomp Require Import all_ssreflect all_algebra.
From Verif Require Import Base ModelPe SpecPe ProofPe ModelSolve SpecSolve ProofSolve ModelPinv SpecPinv ProofPinv
  ModelAffine SpecAffine ProofAffine PropAffine SpecNewton ProofNewton ProofNewton2 ProofNewton3 PropNewton SpecIdle ProofNewton4 ProofNewton5 PropIdle.
From Verif Require Import Numbers ModelBFPy SpecBasis ModelND SpecND ProofND2 ModelELM SpecELM ModelNELM SpecNELM ProofNELM2 ModelUtfc SpecUtfc ModelMtfc SpecMtfc ProofMtfc ProofMtfc3 SpecNColl PropNELM PropNColl ProofColl ProofRecover
  RealStruct SpecRecover PropRecover ModelOde SpecOde ProofOde PropOde PropOdeNl ModelPde SpecPde ProofPde ProofPde2 ProofPde3 PropPde ProofOdeNl2 ModelPdeNl SpecPdeNl ProofPdeNl ProofPdeNl2 PropPdeNl
  ModelOdeSysG SpecOdeSysG ProofOdeSysG ModelPdeG SpecPdeG ProofPdeG.
Set Implicit Arguments.
Unset Strict Implicit.
Unset Printing Implicit Defensive.
Import GRing.Theory Num.Theory.
Local Open Scope ring_scope.

(** the residual function handed to the solver is that of the script *)
Definition runs_pg (Ar : Type) N n jvpn (u : mtfc (T:=R)) dim css phis e (args : seq (value R_realFieldType Ar n))
    (res : seq (value R_realFieldType Ar n) -> 'cV[R]_N) : Prop :=
  forall xi : 'cV[R]_n, residual_pg jvpn u dim css phis e (fun_of xi) [seq res (Unk xi :: args) i 0 | i <- enum 'I_N].

Lemma arrayP_ok z Xs e : arrayP z Xs e = List.map (pexp_at e z) Xs.
Proof.
elim: e => [co|g|a IHa b IHb|a IHa b IHb|f a IHa] //=; rewrite IHa ?IHb.
- by elim: Xs {IHa IHb} => //= X Xs ->.
- by elim: Xs {IHa IHb} => //= X Xs ->.
- by rewrite List.map_map.
Qed.
Lemma pexp_ext e z z' X : (forall Y, z Y = z' Y) -> pexp_at e z X = pexp_at e z' X.
Proof.
move=> H; elim: e => [co|g|a IHa b IHb|a IHa b IHb|f a IHa] //=; rewrite ?IHa ?IHb //.
exact: pde_ext.
Qed.
Lemma dpexp_ext e z z' v v' X : (forall Y, z Y = z' Y) -> (forall Y, v Y = v' Y) -> dpexp_at e z v X = dpexp_at e z' v' X.
Proof.
move=> H H'; elim: e => [co|g|a IHa b IHb|a IHa b IHb|f a IHa] //=; rewrite ?IHa ?IHb ?(pexp_ext a X H) ?(pexp_ext b X H) //.
exact: pde_ext.
Qed.
Lemma pregular_ext e z z' X : (forall Y, z Y = z' Y) -> pregular e z X -> pregular e z' X.
Proof.
move=> H; elim: e => [co|g|a IHa b IHb|a IHa b IHb|f a IHa] //=.
- by case=> /IHa ? /IHb ?.
- by case=> /IHa ? /IHb ?.
- by case=> /IHa ? []; rewrite (pexp_ext a X H).
Qed.
Lemma nth_map_seq (g : nat -> R) m i : Peano.lt i m -> List.nth i (List.map g (List.seq 0 m)) 0 = g i.
Proof.
move=> Hi; rewrite (List.nth_indep _ _ (g 0%N)); last by rewrite List.map_length List.seq_length.
by rewrite List.map_nth List.seq_nth.
Qed.
Lemma nth_listR (l : seq R) i : List.nth i l 0 = nth 0 l i.
Proof. by elim: l i => [|x l IH] [|i] //=; rewrite IH. Qed.
Lemma fun_of_far n (x : 'cV[R]_n) i : (n <= i)%N -> fun_of x i = 0.
Proof. by move=> Hi; rewrite /fun_of insubN // -leqNgt. Qed.
Lemma fun_of_add n (x y : 'cV[R]_n) i : fun_of (x + y) i = Rplus (fun_of x i) (fun_of y i).
Proof.
case: (ltnP i n) => Hi; last by rewrite !fun_of_far // -[0]/R0; lra.
by rewrite -[i]/(nat_of_ord (Ordinal Hi)) !fun_of_ord mxE.
Qed.
Lemma fun_of_scal n (x : 'cV[R]_n) t i : fun_of (t *: x) i = Rmult t (fun_of x i).
Proof.
case: (ltnP i n) => Hi; last by rewrite !fun_of_far // -[0]/R0; lra.
by rewrite -[i]/(nat_of_ord (Ordinal Hi)) !fun_of_ord mxE.
Qed.
Lemma fun_of_sub n (x y : 'cV[R]_n) i : fun_of (x - y) i = Rminus (fun_of x i) (fun_of y i).
Proof.
case: (ltnP i n) => Hi; last by rewrite !fun_of_far // -[0]/R0; lra.
by rewrite -[i]/(nat_of_ord (Ordinal Hi)) !fun_of_ord !mxE.
Qed.
Lemma within_nearf n (x y : 'cV[R]_n) d : Rle 0 d -> @within R_realFieldType n (y - x) d -> nearf d (fun_of x) (fun_of y).
Proof.
move=> Hd H i; case: (ltnP i n) => Hi; last by rewrite !fun_of_far // Rminus_eq_0 Rabs_R0.
by rewrite -[i]/(nat_of_ord (Ordinal Hi)) !fun_of_ord; have := H (Ordinal Hi); rewrite !mxE => /RlebP.
Qed.
(** the derivative in a direction is the sum of the partial derivatives times its entries *)
Lemma tdir_sum n (a : ptree) x (h : 'cV[R]_n) : tdir a x (fun_of h) = \sum_(j < n) tdir a x (fun_of (delta_mx j 0 : 'cV[R]_n)) * h j 0.
Proof.
have E : h = \sum_(j < n) h j 0 *: (delta_mx j 0 : 'cV[R]_n).
  by rewrite [LHS]matrix_sum_delta; apply: eq_bigr => j _; rewrite big_ord1.
rewrite {1}E; elim: (index_enum _) => [|j l IH].
  rewrite !big_nil; apply: etrans (tdir_zero a x); apply: tdir_ext => // i.
  by case: (ltnP i n) => Hi; [rewrite -[i]/(nat_of_ord (Ordinal Hi)) fun_of_ord mxE|rewrite fun_of_far].
rewrite !big_cons /= -IH.
rewrite (@tdir_ext a x x _ (fun i => Rplus (Rmult (h j 0) (fun_of (delta_mx j 0 : 'cV[R]_n) i)) (fun_of (\sum_(j <- l) h j 0 *: (delta_mx j 0 : 'cV[R]_n)) i))) //.
  by rewrite tdir_add tdir_mul Rmult_comm.
by move=> i; rewrite fun_of_add fun_of_scal.
Qed.

Section Main.
Variables (Ar : Type) (jvpn : (seq R -> R) -> seq R -> seq R -> R) (be : backend) (f : fam) (ns : seq nat) (nC : mnc_arg) (deg dim : nat).
Variables (x0 xf w b : seq R) (u : mtfc (T:=R)) (css : seq (seq pcond)) (phis : seq (seq (seq R))) (e : pexp).
Variables (xip : nat -> R) (p : pt -> R).
Local Notation N := (m_N u).
Local Notation n := (mtfc_num u false).
Variables (jac : (seq (value R_realFieldType Ar n) -> 'cV[R]_N) -> seq (value R_realFieldType Ar n) -> 'M[R]_(N, n)).
Variables (res : seq (value R_realFieldType Ar n) -> 'cV[R]_N) (args : seq (value R_realFieldType Ar n)).
Variables (J : option (seq (value R_realFieldType Ar n) -> 'M[R]_(N, n))) (consts : seq nat) (s : method_).
Hypothesis Hset : pde_setting jvpn be f ns nC deg dim x0 xf w b u css phis.
Hypotheses (Ho : fit_exp dim e).
Hypotheses (Hjac : takes_partials jac) (HJ : right_partials J args res) (Hrun : runs_pg jvpn u dim css phis e args res).
Hypotheses (Hs : valid_method s) (Ha : ascending consts) (Hc : List.Forall (fun k => Peano.le 1 k /\ Peano.le k (length args)) consts).
Hypothesis Hp : surface jvpn u dim css phis xip p.
Hypothesis Hsol : forall j, Peano.lt j N -> pexp_at e p (point_of (m_x u) j) = R0.
Hypothesis Hreg : forall j, Peano.lt j N -> pregular e p (point_of (m_x u) j).
Hypothesis Hiso : gisolated (fun z => exists xi, surface jvpn u dim css phis xi z) e (m_x u) N p.
Local Notation Zf := (Z f nC deg dim x0 xf css phis).
Local Notation pnt := (point_of (m_x u)).

Let Hj : jvpn_ok jvpn := proj1 Hset.
Let Hdim : Peano.le 1 dim := proj1 (proj2 Hset).
Let Hx := proj1 (proj2 (proj2 Hset)).
Let Hu := proj1 (proj2 (proj2 (proj2 Hset))).
Let HnC := proj1 (proj2 (proj2 (proj2 (proj2 Hset)))).
Let Hcs := proj1 (proj2 (proj2 (proj2 (proj2 (proj2 Hset))))).
Let Hph := proj2 (proj2 (proj2 (proj2 (proj2 (proj2 Hset))))).
Let Hsep xi : separable dim (Zf xi). Proof. exact: (@Z_sep f nC deg dim x0 xf css phis Hdim Hcs _). Qed.

(** the expression as a tree of affine functions of the coefficients *)
Lemma ptree_ok X : exists a, forall xi,
  [/\ tval a xi = pexp_at e (Zf xi) X,
      forall h, tdir a xi h = dpexp_at e (Zf xi) (fun Y => Rminus (Zf (fun i => Rplus (xi i) (h i)) Y) (Zf xi Y)) X,
      forall h, (forall Y, Zf (fun i => Rplus (xi i) (h i)) Y = Zf xi Y) -> tidle a h &
      pregular e (Zf xi) X -> treg xi a].
Proof.
elim: e Ho => [co|g|a IHa c IHc|a IHa c IHc|k a IHa] /=.
- move=> Hco; pose row := List.map (fun v => pde co (stages 0 phis (List.map (List.map zero_val) css) (G f dim x0 xf v)) X) (mK (MB f) dim deg nC false).
  pose c0 := pde co (stages 0 phis css (fun _ => R0)) X.
  have E xi : pde co (Zf xi) X = Rplus c0 (row_comb xi row) by exact: (Z_pde f nC deg dim x0 xf css phis Hdim Hcs _ _ _ Hco).
  have Ed xi h : row_comb h row = Rminus (pde co (Zf (fun i => Rplus (xi i) (h i))) X) (pde co (Zf xi) X).
    by rewrite !E (ProofOdeSys.row_comb_add xi h row); lra.
  exists (TLin row c0) => xi; split=> //=.
  + by rewrite E; lra.
  + by move=> h; rewrite (Ed xi h) (pde_minus Hset X Hco).
  + by move=> h Hh; rewrite (Ed xi h) (pde_ext co _ _ X Hh); lra.
- move=> _; exists (TLin [::] (g X)) => xi; split=> //=; lra.
- case=> Fa Fc; have [ta Hta] := IHa Fa; have [tc Htc] := IHc Fc; exists (TAdd ta tc) => xi /=.
  have [A1 A2 A3 A4] := Hta xi; have [C1 C2 C3 C4] := Htc xi; split.
  + by rewrite A1 C1.
  + by move=> h; rewrite A2 C2.
  + by move=> h Hh; split; [exact: A3|exact: C3].
  + by case=> H1 H2; split; [exact: A4|exact: C4].
- case=> Fa Fc; have [ta Hta] := IHa Fa; have [tc Htc] := IHc Fc; exists (TMul ta tc) => xi /=.
  have [A1 A2 A3 A4] := Hta xi; have [C1 C2 C3 C4] := Htc xi; split.
  + by rewrite A1 C1.
  + by move=> h; rewrite A2 C2 A1 C1.
  + by move=> h Hh; split; [exact: A3|exact: C3].
  + by case=> H1 H2; split; [exact: A4|exact: C4].
- move=> Fa; have [ta Hta] := IHa Fa; exists (TApp k ta) => xi /=.
  have [A1 A2 A3 A4] := Hta xi; split.
  + by rewrite A1.
  + by move=> h; rewrite A2 A1.
  + by move=> h Hh; exact: A3.
  + by case=> H1 [H2 H3]; split; [exact: A4|split=> //; rewrite A1].
Qed.
Lemma ptrees_ok : exists a : nat -> ptree, forall i xi, Peano.lt i N ->
  [/\ tval (a i) xi = pexp_at e (Zf xi) (pnt i),
      forall h, tdir (a i) xi h = dpexp_at e (Zf xi) (fun Y => Rminus (Zf (fun i => Rplus (xi i) (h i)) Y) (Zf xi Y)) (pnt i),
      forall h, (forall Y, Zf (fun i => Rplus (xi i) (h i)) Y = Zf xi Y) -> tidle (a i) h &
      pregular e (Zf xi) (pnt i) -> treg xi (a i)].
Proof.
have [a H] := @ProofOdeSysNl.choose_nat _ (TLin [::] R0) (fun i a => forall xi,
  [/\ tval a xi = pexp_at e (Zf xi) (pnt i),
      forall h, tdir a xi h = dpexp_at e (Zf xi) (fun Y => Rminus (Zf (fun i => Rplus (xi i) (h i)) Y) (Zf xi Y)) (pnt i),
      forall h, (forall Y, Zf (fun i => Rplus (xi i) (h i)) Y = Zf xi Y) -> tidle a h &
      pregular e (Zf xi) (pnt i) -> treg xi a]) N (fun i _ => ptree_ok (pnt i)).
by exists a => i xi Hi; exact: H.
Qed.

Lemma pg_main : exists radius c : R, [/\ Rlt 0 radius, Rlt 0 c &
  forall d, Peano.le (List.length d) dim -> exists K C : R, [/\ Rle 0 K, Rle 0 C &
  forall z : 'cV[R]_n, (forall i : 'I_n, Rle (Rabs (Rminus (z i 0) (xip i))) radius) ->
  forall timer printOut cnd (tol : R) maxIter fuel, Rlt 0 tol -> Z.le maxIter (Z.of_nat fuel) -> Peano.le 1 fuel ->
  exists (xi : 'cV[R]_n) k out y,
    [/\ fst (vNLLS jac fuel (Unk z) res args consts J cnd None tol maxIter s timer printOut) = NReturns (NResult (Unk xi) (Z.of_nat k) out),
      surface jvpn u dim css phis (fun_of xi) y, meets_all css y,
      close_on dim x0 xf d y p (Rdiv K (pow 2 (2 ^ k))) &
      forall K', Rlt tol 1 -> Rle 2 (Rmult (Rmult tol c) (pow 2 (2 ^ K'))) -> Z.lt (Z.of_nat K'.+1) maxIter ->
        (k <= K'.+1)%N /\ close_on dim x0 xf d y p (Rmult C tol)]]].
Proof.
have [a Hta] := ptrees_ok.
have HtaI (i : 'I_N) xi := Hta i xi (elimT ltP (ltn_ord i)).
pose r (x : 'cV[R]_n) : 'cV[R]_N := \col_i tval (a i) (fun_of x).
pose jf (x : 'cV[R]_n) : 'M[R]_(N, n) := \matrix_(i, j) tdir (a i) (fun_of x) (fun_of (delta_mx j 0 : 'cV[R]_n)).
have Hdir x (h : 'cV[R]_n) (i : 'I_N) : (jf x *m h) i 0 = tdir (a i) (fun_of x) (fun_of h).
  by rewrite tdir_sum mxE; apply: eq_bigr => j _; rewrite mxE.
have Hres xi : res (Unk xi :: args) = r xi.
  have [z [Hz Hr]] := Hrun xi; have Ez := @surface_Z jvpn Hj be f ns nC deg dim x0 xf w b u css phis Hu Hdim HnC _ _ Hz.
  apply/matrixP => i j; rewrite ord1 [RHS]mxE.
  have [-> _ _ _] := HtaI i (fun_of xi).
  move: Hr; rewrite arrayP_ok /pointsP List.map_map => Hr.
  have := congr1 (fun l : seq R => nth 0 l i) Hr.
  rewrite (nth_map i) ?size_enum_ord // nth_ord_enum => ->.
  rewrite -nth_listR nth_map_seq; last by apply/ltP.
  exact: pexp_ext.
pose xs : 'cV[R]_n := \col_j xip j.
have Ep X : Zf (fun_of xs) X = p X.
  rewrite /xs (@Z_col jvpn be f ns nC deg dim x0 xf w b u css phis Hj Hu Hdim HnC).
  by rewrite -(@surface_Z jvpn Hj be f ns nC deg dim x0 xf w b u css phis Hu Hdim HnC _ _ Hp).
have Hrg i : Peano.lt i N -> treg (fun_of xs) (a i).
  move=> Hi; have [_ _ _ H] := Hta i (fun_of xs) Hi; apply: H.
  by apply: (pregular_ext (z := p)) => [Y|]; [rewrite Ep|exact: Hreg].
have Hpar x : partials res args x (jf x).
  move=> i j; rewrite mxE.
  apply: (is_derive_ext (fun t : R => tval (a i) (fun k => Rplus (fun_of x k) (Rmult t (fun_of (delta_mx j 0 : 'cV[R]_n) k))))).
    by move=> t; rewrite Hres mxE; apply: tval_ext => k; rewrite fun_of_add fun_of_scal.
  by apply: tdir_derive; apply: (treg_diff (fun_of xs)); apply: Hrg; apply/ltP.
have Hsw : @solves_with R_realFieldType Ar N n jac res args J r jf.
  move=> x; split; first exact: Hres.
  case: J HJ => [j|] HJ'; last exact: (Hjac (Hpar x)).
  exact: partials_unique (HJ' j erefl x) (Hpar x).
have Hzs xi : surface jvpn u dim css phis xi (Zf xi) by exact: (@Z_surface jvpn Hj be f ns nC deg dim x0 xf w b u css phis Hu Hdim HnC _).
have [rho [L [Hrho [HL0 HT0]]]] := all_tnice (fun_of xs) a N Hrg.
have HT : @SpecNewton.taylor R_realFieldType N n r jf xs rho L.
  move=> x y d Wx Wy Wd i.
  have Nx : nearf rho (fun_of xs) (fun_of x) by apply: within_nearf => //; lra.
  have Ny : nearf rho (fun_of xs) (fun_of y) by apply: within_nearf => //; lra.
  have Nd : nearf (Rabs d) (fun_of x) (fun_of y).
    apply: within_nearf; first exact: Rabs_pos.
    move=> j; apply: Order.POrderTheory.le_trans (Wd j) _; apply/RlebP; exact: Rle_abs.
  have := HT0 i (fun_of x) (fun_of y) (Rabs d) (elimT ltP (ltn_ord i)) Nx Ny (Rabs_pos _) Nd.
  rewrite (@tdir_ext (a i) _ (fun_of x) _ (fun_of (y - x)) (fun _ => erefl)); last by move=> k; rewrite fun_of_sub.
  rewrite -Hdir.
  have -> : Rmult (Rabs d) (Rabs d) = Rmult d d by rewrite -Rabs_mult Rabs_pos_eq //; exact: Rle_0_sqr.
  move=> H; apply/RlebP; move: H; rewrite [X in `|X|]mxE [X in `|X + _|]mxE [X in `|_ + X|]mxE [X in `|_ + X - _|]mxE [X in `|X + _ - _|]mxE [X in `|_ - X - _|]mxE expr2.
  by [].
have Hr0 : r xs = 0.
  apply/matrixP => i j; rewrite ord1 [RHS]mxE mxE.
  have [-> _ _ _] := HtaI i (fun_of xs); rewrite (pexp_ext _ _ Ep).
  by apply: Hsol; apply/ltP.
have Efun (x h : 'cV[R]_n) Y : Zf (fun k => Rplus (fun_of x k) (fun_of h k)) Y = Zf (fun_of (x + h)) Y.
  by apply: stages_ext => X; apply: ProofOdeSys.row_comb_ext' => k; rewrite fun_of_add.
have Hker (h : 'cV[R]_n) : jf xs *m h = 0 -> forall X, Zf (fun_of (xs + h)) X = p X.
  move=> Hh; apply: Hiso; first by exists (fun_of (xs + h)).
  move=> j /ltP Hj'; pose i := Ordinal Hj'; rewrite -[j]/(nat_of_ord i).
  have := congr1 (fun M : 'cV[R]_N => M i 0) Hh; rewrite Hdir [RHS]mxE -[0]/R0.
  have [_ -> _ _] := HtaI i (fun_of xs); move=> HH; refine (eq_trans _ HH).
  by apply: dpexp_ext => Y; rewrite ?Efun Ep.
have Hidle : forall k : 'cV[R]_n, jf xs *m k = 0 -> @idle R_realFieldType N n r jf k.
  move=> k Hk; have Ek X : Zf (fun_of (xs + k)) X = Zf (fun_of xs) X by rewrite Hker // Ep.
  have Ht (i : 'I_N) : tidle (a i) (fun_of k).
    by have [_ _ H _] := HtaI i (fun_of xs); apply: H => Y; rewrite Efun Ek.
  move=> x; split.
  - apply/matrixP => i j; rewrite !mxE -(@tidle_val (a i) (fun_of x) (fun_of k) (Ht i)).
    by apply: tval_ext => l; rewrite fun_of_add.
  - apply/matrixP => i j; rewrite !mxE -(@tidle_at (a i) (fun_of x) (fun_of k) _ (Ht i)).
    by apply: tdir_ext => // l; rewrite fun_of_add.
  - by apply/matrixP => i j; rewrite ord1 Hdir [RHS]mxE (@tidle_dir (a i) (fun_of x) _ (Ht i)).
have HL' : 0 <= (L : R_realFieldType) by apply/RlebP.
have Hrho' : 0 < (rho : R_realFieldType) by apply/RltbP.
have [radius [c [C [Hrad Hcp HC Hgo]]]] := C99_idle Hsw Hs Ha Hc HT Hr0 HL' Hrho' Hidle.
have Hc' : Rlt 0 c by move/RltbP: Hcp.
have HC' : Rlt 0 C by move/RltbP: HC.
exists radius, c; split=> //; first by move/RltbP: Hrad.
move=> d Hd; have [K [HK Hbnd]] := Z_bound Hset Hd.
have HK' : Rle 0 K by move/RlebP: HK.
exists (Rdiv K c), (Rmult K C); split.
- by apply: Rmult_le_pos => //; left; apply: Rinv_0_lt_compat.
- by apply: Rmult_le_pos => //; left.
move=> z Hz timer printOut cnd tol maxIter fuel Htol HM Hfl.
have Htol' : 0 < tol by apply/RltbP.
have Hz' : @within R_realFieldType n (z - xs) radius.
  by move=> i; apply/RlebP; rewrite !mxE; exact: Hz.
have [xs' [Er' Ek' _ Hgo']] := Hgo z Hz'.
have Ep' X : p X = Zf (fun_of xs') X by rewrite -(Hker _ Ek') addrC subrK.
have [xi [k [out [E1 _ E3 E4]]]] := Hgo' timer printOut cnd tol maxIter fuel Htol' HM Hfl.
have Hcl e1 e' : @within R_realFieldType n (xi - xs') e1 -> Rmult K e1 = e' -> close_on dim x0 xf d (Zf (fun_of xi)) p e'.
  move=> Hw <- X HX; have := Hbnd _ _ _ Hw X HX.
  by rewrite (pdiff_ext d 0 p _ X Ep').
exists xi, k, out, (Zf (fun_of xi)); split=> //.
- by move=> l cc Hl; exact: (@Z_meets f nC deg dim x0 xf css phis Hdim Hcs Hph _ _ _ Hl).
- apply: Hcl E3 _.
  have Hpw : Rlt 0 (pow 2 (2 ^ k)) by apply: pow_lt; lra.
  rewrite RinvE RpowE; last exact: Rmult_lt_0_compat.
  rewrite -RmE Rinv_mult_distr; [|exact: Rgt_not_eq|exact: Rgt_not_eq].
  by rewrite /Rdiv Rmult_assoc.
move=> K' Ht1 H2 HM'.
have Ht1' : tol < 1 by apply/RltbP.
have H2' : 2%:R <= tol * c * 2%:R ^+ (2 ^ K') by apply/RlebP; rewrite RpowE R2E.
have [Hk Hw] := E4 K' Ht1' H2' HM'; split=> //.
by apply: Hcl Hw _; rewrite -RmE -Rmult_assoc.
Qed.
End Main.

(** ** C116 *)
(** Let the residual be any expression built from the unknown function, its derivatives and given
    functions of the points.  Let [p] be what the script's expression gives for the coefficients [xip],
    let it satisfy the equation at the points, let the functions applied in the residual be smooth
    enough there, and let the linearised equation at [p] have no other solution among the differences
    of such expressions.  Then NLLS started near [xip] returns after [k] iterations the coefficients of
    a function that meets all conditions at all points and is within [K / 2^(2^k)] of [p] on the whole
    box, and so are its derivatives of any orders.  With enough iterations allowed it stops by itself,
    within a multiple of [tol] of [p].  Other coefficients may give [p] as well. *)
Theorem C116_converges : forall (Ar : Type) jvpn be f ns nC deg dim x0 xf w b u css phis e xip p,
  pde_setting jvpn be f ns nC deg dim x0 xf w b u css phis -> fit_exp dim e ->
  surface jvpn u dim css phis xip p ->
  (forall j, Peano.lt j (m_N u) -> pexp_at e p (point_of (m_x u) j) = R0) ->
  (forall j, Peano.lt j (m_N u) -> pregular e p (point_of (m_x u) j)) ->
  gisolated (fun z => exists xi, surface jvpn u dim css phis xi z) e (m_x u) (m_N u) p ->
  let n := mtfc_num u false in let N := m_N u in
  forall (jac : (seq (value R_realFieldType Ar n) -> 'cV[R]_N) -> seq (value R_realFieldType Ar n) -> 'M[R]_(N, n))
    (res : seq (value R_realFieldType Ar n) -> 'cV[R]_N) args J consts s,
  takes_partials jac -> runs_pg jvpn u dim css phis e args res -> right_partials J args res -> valid_method s ->
  ascending consts -> List.Forall (fun k => Peano.le 1 k /\ Peano.le k (length args)) consts ->
  exists radius c : R, [/\ Rlt 0 radius, Rlt 0 c &
  forall d, Peano.le (List.length d) dim -> exists K C : R, [/\ Rle 0 K, Rle 0 C &
  forall z : 'cV[R]_n, (forall i : 'I_n, Rle (Rabs (Rminus (z i 0) (xip i))) radius) ->
  forall timer printOut cnd (tol : R) maxIter fuel, Rlt 0 tol -> Z.le maxIter (Z.of_nat fuel) -> Peano.le 1 fuel ->
  exists (xi : 'cV[R]_n) k out y,
    [/\ fst (vNLLS jac fuel (Unk z) res args consts J cnd None tol maxIter s timer printOut) = NReturns (NResult (Unk xi) (Z.of_nat k) out),
      surface jvpn u dim css phis (fun_of xi) y, meets_all css y,
      close_on dim x0 xf d y p (Rdiv K (pow 2 (2 ^ k))) &
      forall K', Rlt tol 1 -> Rle 2 (Rmult (Rmult tol c) (pow 2 (2 ^ K'))) -> Z.lt (Z.of_nat K'.+1) maxIter ->
        (k <= K'.+1)%N /\ close_on dim x0 xf d y p (Rmult C tol)]]].
Proof.
move=> Ar jvpn be f ns nC deg dim x0 xf w b u css phis e xip p Hset Ho Hp Hsol Hreg Hiso n N jac res args J consts s Hjac Hrun HJ Hs Ha Hc.
exact: (pg_main Hset Ho Hjac HJ Hrun Hs Ha Hc Hp Hsol Hreg Hiso).
Qed.
Print Assumptions C116_converges.

(** A polynomial of the basis' degree that meets the conditions is what the expression gives for some
    coefficients: the same for such a solution. *)
Theorem C116_polynomial : forall (Ar : Type) jvpn be f ns nC deg dim x0 xf w b u css phis e m,
  pde_setting jvpn be f ns nC deg dim x0 xf w b u css phis -> fit_exp dim e ->
  f <> FS -> total_degree dim deg m -> meets_all css (mpoly_at dim m) ->
  let p := mpoly_at dim m in
  (forall j, Peano.lt j (m_N u) -> pexp_at e p (point_of (m_x u) j) = R0) ->
  (forall j, Peano.lt j (m_N u) -> pregular e p (point_of (m_x u) j)) ->
  gisolated (fun z => exists xi, surface jvpn u dim css phis xi z) e (m_x u) (m_N u) p ->
  let n := mtfc_num u false in let N := m_N u in
  forall (jac : (seq (value R_realFieldType Ar n) -> 'cV[R]_N) -> seq (value R_realFieldType Ar n) -> 'M[R]_(N, n))
    (res : seq (value R_realFieldType Ar n) -> 'cV[R]_N) args J consts s,
  takes_partials jac -> runs_pg jvpn u dim css phis e args res -> right_partials J args res -> valid_method s ->
  ascending consts -> List.Forall (fun k => Peano.le 1 k /\ Peano.le k (length args)) consts ->
  exists (xip : nat -> R) (radius c : R), [/\ surface jvpn u dim css phis xip p, Rlt 0 radius, Rlt 0 c &
  forall d, Peano.le (List.length d) dim -> exists K C : R, [/\ Rle 0 K, Rle 0 C &
  forall z : 'cV[R]_n, (forall i : 'I_n, Rle (Rabs (Rminus (z i 0) (xip i))) radius) ->
  forall timer printOut cnd (tol : R) maxIter fuel, Rlt 0 tol -> Z.le maxIter (Z.of_nat fuel) -> Peano.le 1 fuel ->
  exists (xi : 'cV[R]_n) k out y,
    [/\ fst (vNLLS jac fuel (Unk z) res args consts J cnd None tol maxIter s timer printOut) = NReturns (NResult (Unk xi) (Z.of_nat k) out),
      surface jvpn u dim css phis (fun_of xi) y, meets_all css y,
      close_on dim x0 xf d y p (Rdiv K (pow 2 (2 ^ k))) &
      forall K', Rlt tol 1 -> Rle 2 (Rmult (Rmult tol c) (pow 2 (2 ^ K'))) -> Z.lt (Z.of_nat K'.+1) maxIter ->
        (k <= K'.+1)%N /\ close_on dim x0 xf d y p (Rmult C tol)]]].
Proof.
move=> Ar jvpn be f ns nC deg dim x0 xf w b u css phis e m Hset Ho Hf Hm Hmeet p Hsol Hreg Hiso n N jac res args J consts s Hjac Hrun HJ Hs Ha Hc.
have [_ H2] := C95_conditions Hset; have [xip Hp] := H2 Hf m Hm Hmeet.
have [radius [c [H3 H4 H5]]] := C116_converges Hset Ho Hp Hsol Hreg Hiso Hjac Hrun HJ Hs Ha Hc.
by exists xip, radius, c; split.
Qed.
Print Assumptions C116_polynomial.

(** z_xy + exp z = 1 + exp (x + x y), z(0, y) = 0, z(x, 0) = x: NLLS with nine points, degree 2 and [maxIter] 10 finds
    z = x + x y from nearby coefficients, to any tolerance that ten iterations can give, on the whole square; five
    coefficients are sought of which one matters. *)
Definition ex_g (X : pt) : R := Ropp (Rplus R1 (exp (Rplus (X 0%N) (Rmult (X 0%N) (X 1%N))))).
Definition ex_e : pexp := PAdd (PLin ex_co) (PAdd (PApp exp (PLin ex_ca)) (PCoef ex_g)).
Lemma exp_D x : Derive exp x = exp x.
Proof. by apply: is_derive_unique; apply: is_derive_exp. Qed.
Lemma ex_twice x : twice_near exp x.
Proof.
exists R1, (exp (Rplus x R1)); split=> [|y Hy]; first by lra.
have E : Derive (Derive exp) y = exp y by rewrite (Derive_ext _ exp); [exact: exp_D|move=> t; exact: exp_D].
split; first by apply: (ex_derive_ext exp) => [t|]; [rewrite exp_D|exists (exp y); exact: is_derive_exp].
rewrite E Rabs_pos_eq; last by left; exact: exp_pos.
have Hle : Rle y (Rplus x R1) by move/Rabs_le_between: Hy; lra.
by case: Hle => [Hlt|->]; [left; exact: exp_increasing|exact: Rle_refl].
Qed.
Lemma ex_g_solved X : pexp_at ex_e (mpoly_at 2 ex_sol) X = R0.
Proof.
have [|E1 [E2 _]] := ex_parts R1 R1 X (mpoly_at 2 ex_sol); first by move=> Y; rewrite ex_sol_at; lra.
cbn [pexp_at ex_e]; rewrite E1 E2 /ex_g.
have -> : Rplus (Rmult R1 (X 0%N)) (Rmult R1 (Rmult (X 0%N) (X 1%N))) = Rplus (X 0%N) (Rmult (X 0%N) (X 1%N)) by lra.
lra.
Qed.
Lemma ex_g_isolated jvpn be u : jvpn_ok jvpn -> mkm be (MB CP) [:: 3; 3]%N (MList [:: EInt (Zpos xH); EInt (Zpos xH)]) 2 2 [:: R0; R0] [:: R1; R1] [::] [::] = Some u ->
  gisolated (fun z => exists xi, surface jvpn u 2 ex_css ex_phis xi z) ex_e (m_x u) (m_N u) (mpoly_at 2 ex_sol).
Proof.
move=> Hj Hu z [xi Hz] Hl.
have H12 : Peano.le 1 2 by lia.
have Ez := @surface_Z jvpn Hj be CP [:: 3; 3]%N _ 2 2 [:: R0; R0] [:: R1; R1] [::] [::] u ex_css ex_phis Hu H12 erefl _ _ Hz.
have [c Ec] := ex_form be _ u xi Hu; have [H0 HX] := ex_origin be u Hu.
have {Hl} := Hl 0%N H0; set X := point_of (m_x u) 0.
have E0 : X 0%N = R0 by apply: HX; lia.
have E1 : X 1%N = R0 by apply: HX; lia.
have [|P1 [P2 _]] := ex_parts R1 R1 X (mpoly_at 2 ex_sol); first by move=> Y; rewrite ex_sol_at; lra.
have [|V1 [V2 _]] := ex_parts R0 (Rminus c R1) X (fun Y : pt => Rminus (z Y) (mpoly_at 2 ex_sol Y)).
  by move=> Y; rewrite ex_sol_at Ez Ec; lra.
cbn [dpexp_at pexp_at ex_e]; rewrite V1 V2 E0 => Hl.
have Hc : c = R1.
  by move: Hl; rewrite !Rmult_0_l !Rmult_0_r !Rplus_0_r Rmult_0_r; lra.
by move=> Y; rewrite Ez Ec ex_sol_at Hc; lra.
Qed.
Example C116_case : exists u (xip : nat -> R) (radius c C : R)
    (res : seq (value R_realFieldType unit (mtfc_num u false)) -> 'cV[R]_(m_N u)),
  [/\ mkm Py (MB CP) [:: 3; 3]%N (MList [:: EInt (Zpos xH); EInt (Zpos xH)]) 2 2 [:: R0; R0] [:: R1; R1] [::] [::] = Some u,
      runs_pg cjvpn u 2 ex_css ex_phis ex_e [::] res,
      surface cjvpn u 2 ex_css ex_phis xip (fun X => Rplus (Rmult (X 0%N) (X 1%N)) (X 0%N)), Rlt 0 radius /\ Rlt 0 c &
      forall (z : 'cV[R]_(mtfc_num u false)) (tol : R), (forall i : 'I__, Rle (Rabs (Rminus (z i 0) (xip i))) radius) ->
      Rlt 0 tol -> Rlt tol 1 -> Rle 2 (Rmult (Rmult tol c) (pow 2 (2 ^ 8))) ->
      exists xi k out y,
        [/\ fst (vNLLS (@derive_jac unit _ _) 10 (Unk z) res [::] [::] None None None tol 10 Pinv false false) = NReturns (NResult (Unk xi) (Z.of_nat k) out),
          (k <= 9)%N, surface cjvpn u 2 ex_css ex_phis (fun_of xi) y, meets_all ex_css y &
          forall X, in_box 2 [:: R0; R0] [:: R1; R1] X -> Rle (Rabs (Rminus (y X) (Rplus (Rmult (X 0%N) (X 1%N)) (X 0%N)))) (Rmult C tol)]].
Proof.
have [u [Hu Hset]] := ex_setting; have [Ho [Hoa _]] := ex_orders.
have H12 : Peano.le 1 2 by lia.
pose zf (x : 'cV[R]_(mtfc_num u false)) := Z CP (MList [:: EInt (Zpos xH); EInt (Zpos xH)]) 2 2 [:: R0; R0] [:: R1; R1] ex_css ex_phis (fun_of x).
pose res (l : seq (value R_realFieldType unit (mtfc_num u false))) : 'cV[R]_(m_N u) :=
  if l is Unk x :: _ then \col_i pexp_at ex_e (zf x) (point_of (m_x u) i) else 0.
have Hrun : runs_pg cjvpn u 2 ex_css ex_phis ex_e [::] res.
  move=> xi; exists (zf xi); split; first exact: (@Z_surface cjvpn jvpn_ok_case Py CP [:: 3; 3]%N _ 2 2 [:: R0; R0] [:: R1; R1] [::] [::] u ex_css ex_phis Hu H12 erefl).
  rewrite arrayP_ok /pointsP List.map_map; apply: (@eq_from_nth _ 0) => [|i].
    by rewrite size_map size_enum_ord -[size _]/(List.length _) List.map_length List.seq_length.
  rewrite size_map size_enum_ord => Hi; rewrite (nth_map (Ordinal Hi)) ?size_enum_ord // mxE nth_enum_ord //.
  by rewrite -nth_listR nth_map_seq //; apply/ltP.
have Hne : CP <> FS by [].
have Hj0 : @right_partials unit _ _ None [::] res by [].
have Hfit : fit_exp 2 ex_e by split; [exact: Ho|split; [exact: Hoa|]].
have Hreg X : pregular ex_e (mpoly_at 2 ex_sol) X.
  split=> //; split=> //; split=> //; split; last exact: ex_twice.
  by move=> y; exists (exp y); exact: is_derive_exp.
have [xip [radius [c [Hp Hrad Hc Hgo]]]] := @C116_polynomial unit cjvpn Py CP [:: 3; 3]%N _ 2 2 [:: R0; R0] [:: R1; R1] [::] [::] u ex_css ex_phis ex_e
  ex_sol Hset Hfit Hne ex_degree ex_meets (fun j _ => ex_g_solved _) (fun j _ => Hreg _) (ex_g_isolated jvpn_ok_case Hu) (@derive_jac unit _ _) res [::] None [::] Pinv
  (@derive_jac_ok _ _ _) Hrun Hj0 ltac:(by []) ltac:(constructor) ltac:(constructor).
have [|K [C [_ _ Hz]]] := Hgo [::]; first by rewrite /=; lia.
exists u, xip, radius, c, C, res; split=> //.
  by case: Hp => g [Hg Eg]; exists g; split=> // X; rewrite -Eg ex_sol_at.
move=> z tol Hzr Ht0 Ht1 Hbig.
have HM : Z.le (Z.succ 9) (Z.of_nat 10) by lia.
have Hfl : Peano.le 1 10 by lia.
have [xi [k [out [y [E1 E2 E3 _ E5]]]]] := Hz z Hzr false false None tol (Z.succ 9) 10%N Ht0 HM Hfl.
have [|Hk Hy] := E5 8%N Ht1 Hbig; first by lia.
exists xi, k, out, y; split=> // X HX.
by rewrite -ex_sol_at; exact: (Hy X HX).
Qed.
