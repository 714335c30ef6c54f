(** C95: linear partial differential equations, solved with a constrained expression in several
    variables and LS or NLLS. *)
From Coq Require Import ZArith Lia Reals Lra.
From Coquelicot Require Import Coquelicot.
From mathcomp Require Import all_ssreflect all_algebra.
From Verif Require Import Base ModelPe SpecPe ProofPe ModelSolve SpecSolve ProofSolve ModelPinv SpecPinv ProofPinv
  ModelAffine SpecAffine ProofAffine PropAffine.
From Verif Require Import Numbers ModelBFPy SpecBasis ModelND SpecND ProofND2 ModelELM SpecELM ModelNELM SpecNELM ProofNELM2 ModelUtfc SpecUtfc ModelMtfc SpecMtfc ProofMtfc ProofMtfc3 SpecNColl PropNELM PropNColl ProofColl ProofRecover
  RealStruct SpecRecover PropRecover ModelOde SpecOde ProofOde PropOde ModelPde SpecPde ProofPde ProofPde2 ProofPde3.
Set Implicit Arguments.
Unset Strict Implicit.
Unset Printing Implicit Defensive.
Import GRing.Theory Num.Theory.
Local Open Scope ring_scope.

(** the residual function handed to the solver is that of the script *)
Definition runs_pde (Ar : Type) N n jvpn (u : mtfc (T:=R)) dim css phis co q (args : seq (value R_realFieldType Ar n))
    (res : seq (value R_realFieldType Ar n) -> 'cV[R]_N) : Prop :=
  forall xi : 'cV[R]_n, ModelPde.residual jvpn u dim css phis co q (fun_of xi) (fun_of (res (Unk xi :: args))).

Section Pde.
Variables (Ar : Type) (jvpn : (seq R -> R) -> seq R -> seq R -> R) (be : backend) (f : fam) (ns : seq nat) (nC : mnc_arg) (deg dim : nat).
Variables (x0 xf w b : seq R) (u : mtfc (T:=R)) (css : seq (seq pcond)) (phis : seq (seq (seq R))) (co : seq ((pt -> R) * seq nat)) (q : pt -> R).
Hypothesis Hj : jvpn_ok jvpn.
Hypothesis Hu : mkm be (MB f) ns nC deg dim x0 xf w b = Some u.
Hypothesis Hdim : Peano.le 1 dim.
Hypothesis HnC : entries nC (counts css).
Hypothesis Hx : forall k, Peano.lt k dim -> Rlt (List.nth k x0 R0) (List.nth k xf R0).
Hypothesis Hcs : consistent dim css.
Hypothesis Hph : switchings css phis.
Hypothesis Ho : orders_fit dim co.
Local Notation N := (m_N u).
Local Notation n := (mtfc_num u false).
Local Notation Zf := (Z f nC deg dim x0 xf css phis).
Local Notation pnt := (point_of (m_x u)).

Lemma pde_facts : exists (A : 'M[R]_(N, n)) (c : 'cV[R]_N),
  (forall args res, @runs_pde Ar N n jvpn u dim css phis co q args res -> res_is res args A c) /\
  forall (xi : 'cV[R]_n) (i : 'I_N), affine A c xi i 0 = Rminus (pde co (Zf (fun_of xi)) (pnt i)) (q (pnt i)).
Proof.
pose row X := List.map (fun v => pde co (stages 0 phis (List.map (List.map zero_val) css) (G f dim x0 xf v)) X) (mK (MB f) dim deg nC false).
have Hrow X : List.length (row X) = n.
  by rewrite /row List.map_length (@o_num jvpn Hj be f ns nC deg dim x0 xf w b u css Hu Hdim HnC false).
pose A : 'M[R]_(N, n) := \matrix_(i, j) nth 0 (row (pnt i)) j.
pose c : 'cV[R]_N := \col_i Rminus (pde co (stages 0 phis css (fun _ => R0)) (pnt i)) (q (pnt i)).
have HA xi (i : 'I_N) : affine A c xi i 0 = Rminus (pde co (Zf (fun_of xi)) (pnt i)) (q (pnt i)).
  rewrite (@Z_pde f nC deg dim x0 xf css phis Hdim Hcs co (fun_of xi) (pnt i) Ho) -/(row (pnt i)) (fun_of_row _ (Hrow _)).
  rewrite /affine mxE [c i 0]mxE mxE.
  rewrite (eq_bigr (fun j : 'I_n => nth 0 (row (pnt i)) j * xi j 0)) => [|j _]; last by rewrite mxE.
  move: (\sum_j _) (pde _ _ _) (q _) => s P Q.
  by change (Rplus s (Rminus P Q) = Rminus (Rplus P s) Q); lra.
exists A, c; split; last exact: HA.
move=> args res Hrun xi; apply/matrixP=> i j; rewrite ord1 HA.
have [z [Hz Hr]] := Hrun xi.
have Hi : Peano.lt i N by apply/ltP.
have := Hr i Hi; rewrite fun_of_ord => ->; congr Rminus.
by apply: pde_ext => Y; exact: (@surface_Z jvpn Hj be f ns nC deg dim x0 xf w b u css phis Hu Hdim HnC _ _ Hz).
Qed.

Lemma npos : (0 < n)%N.
Proof.
have [v [Hv _]] := @o_one be f ns nC deg dim x0 xf w b u css Hu Hdim HnC Hcs 0%N Hdim.
rewrite (@o_num jvpn Hj be f ns nC deg dim x0 xf w b u css Hu Hdim HnC false).
by case: (mK _ _ _ _ _) Hv => [|? ?] //.
Qed.
Lemma Z_col (a : nat -> R) X : Zf (fun_of (\col_(j < n) a j)) X = Zf a X.
Proof.
have Hl Y : List.length (List.map (fun v => G f dim x0 xf v Y) (mK (MB f) dim deg nC false)) = n.
  by rewrite List.map_length (@o_num jvpn Hj be f ns nC deg dim x0 xf w b u css Hu Hdim HnC false).
apply: stages_ext => Y; rewrite (fun_of_row _ (Hl Y)) (row_comb_sum _ (Hl Y)).
by apply: eq_bigr => j _; rewrite mxE.
Qed.
Lemma pmisfit_sum z x m : pmisfit co q z x m = \sum_(i < m) (Rminus (pde co z (point_of x i)) (q (point_of x i))) ^+ 2.
Proof.
pose F i := Rminus (pde co z (point_of x i)) (q (point_of x i)).
rewrite -(big_mkord xpredT (fun i => F i ^+ 2)) /index_iota subn0.
have G s : List.fold_right (fun j t => Rplus (pow (F j) 2) t) R0 (List.seq s m) = \sum_(i <- iota s m) F i ^+ 2; last exact: (G 0%N).
elim: m s => [|m IH] s; first by rewrite big_nil.
by rewrite [iota _ _]/= big_cons -IH expr2 /= Rmult_1_r.
Qed.
Lemma pmisfit_ext z z' x m : (forall X, z X = z' X) -> pmisfit co q z x m = pmisfit co q z' x m.
Proof. by move=> E; rewrite !pmisfit_sum; apply: eq_bigr => i _; rewrite (@pde_ext co z z' _ E). Qed.
Lemma pmisfit_ge0 z x m : Rle 0 (pmisfit co q z x m).
Proof.
rewrite /pmisfit; elim: (List.seq _ _) => [|j l IH]; first exact: Rle_refl.
by apply: Rplus_le_le_0_compat => //; exact: pow2_ge_0.
Qed.
Lemma pmisfit_0 z x m : (forall j, Peano.lt j m -> pde co z (point_of x j) = q (point_of x j)) <-> pmisfit co q z x m = R0.
Proof.
rewrite pmisfit_sum; split=> [H|/eqP].
  by rewrite big1 // => i _; rewrite H; [rewrite Rminus_eq_0 expr0n|apply/ltP].
rewrite psumr_eq0 => [/allP H j /ltP Hj'|i _]; last exact: sqr_ge0.
have := H (Ordinal Hj') (mem_index_enum _); rewrite /= sqrf_eq0 => /eqP; exact: Rminus_diag_uniq.
Qed.

Lemma best_pde (A : 'M[R]_(N, n)) c xi :
  (forall (xi : 'cV[R]_n) (i : 'I_N), affine A c xi i 0 = Rminus (pde co (Zf (fun_of xi)) (pnt i)) (q (pnt i))) ->
  minimises (affine A c) xi -> forall a, Rle (pmisfit co q (Zf (fun_of xi)) (m_x u) N) (pmisfit co q (Zf a) (m_x u) N).
Proof.
move=> HA Hm a.
have E xj : norm2 (affine A c xj) = pmisfit co q (Zf (fun_of xj)) (m_x u) N.
  by rewrite pmisfit_sum; apply: eq_bigr => i _; rewrite HA.
rewrite -E -(pmisfit_ext _ _ (Z_col a)) -E.
by apply/RlebP; exact: (Hm _).
Qed.
End Pde.

(** ** C95 *)
(** The setting: an object for [dim] variables whose [nC] counts the conditions in each of them,
    conditions that fit together, and switching polynomials for them. *)
Definition pde_setting jvpn be f ns nC deg dim x0 xf w b u css phis : Prop :=
  jvpn_ok jvpn /\ Peano.le 1 dim /\ (forall k, Peano.lt k dim -> Rlt (List.nth k x0 R0) (List.nth k xf R0)) /\
  mkm be (MB f) ns nC deg dim x0 xf w b = Some u /\ entries nC (counts css) /\ consistent dim css /\ switchings css phis.
Definition meets_all css z : Prop := forall k c, among css k c -> meetsp k c z.

(** Whatever the coefficients, the expression meets every condition at all points, and every polynomial
    of the basis' degree that meets the conditions is the expression for some coefficients. *)
Theorem C95_conditions : forall jvpn be f ns nC deg dim x0 xf w b u css phis,
  pde_setting jvpn be f ns nC deg dim x0 xf w b u css phis ->
  (forall xi, exists z, surface jvpn u dim css phis xi z /\ separable dim z /\ meets_all css z) /\
  (f <> FS -> forall p, total_degree dim deg p -> meets_all css (mpoly_at dim p) ->
     exists xi, surface jvpn u dim css phis xi (mpoly_at dim p)).
Proof.
move=> jvpn be f ns nC deg dim x0 xf w b u css phis [Hj [Hdim [Hx [Hu [HnC [Hcs Hph]]]]]]; split=> [xi|Hf p Hp Hm].
  exists (Z f nC deg dim x0 xf css phis xi); split; first exact: (@Z_surface jvpn Hj be f ns nC deg dim x0 xf w b u css phis Hu Hdim HnC _).
  split; [exact: (@Z_sep f nC deg dim x0 xf css phis Hdim Hcs _)|move=> k c Hk; exact: (@Z_meets f nC deg dim x0 xf css phis Hdim Hcs Hph _ _ _ Hk)].
have [a Ha] := @Z_complete be f ns nC deg dim x0 xf w b u css phis Hu Hdim HnC Hx Hcs Hph p Hf Hp Hm.
exists a; have [g [Hg Ez]] := @Z_surface jvpn Hj be f ns nC deg dim x0 xf w b u css phis Hu Hdim HnC a.
by exists g; split=> // X; rewrite -Ha Ez.
Qed.
Print Assumptions C95_conditions.

(** what a solution of the least-squares problem gives *)
Definition solves_pde jvpn f ns deg dim u css phis co q (xi : nat -> R) (y : pt -> R) : Prop :=
  surface jvpn u dim css phis xi y /\ meets_all css y /\
  (forall xi' y', surface jvpn u dim css phis xi' y' -> Rle (pmisfit co q y (m_x u) (m_N u)) (pmisfit co q y' (m_x u) (m_N u))) /\
  (f <> FS -> forall p, total_degree dim deg p -> meets_all css (mpoly_at dim p) ->
     Rle (pmisfit co q y (m_x u) (m_N u)) (pmisfit co q (mpoly_at dim p) (m_x u) (m_N u))) /\
  (f <> FS -> (exists p, total_degree dim deg p /\ meets_all css (mpoly_at dim p) /\
       forall j, Peano.lt j (m_N u) -> pde co (mpoly_at dim p) (point_of (m_x u) j) = q (point_of (m_x u) j)) ->
     (forall j, Peano.lt j (m_N u) -> pde co y (point_of (m_x u) j) = q (point_of (m_x u) j)) /\
     (forall mc mq, (forall k c, among css k c -> polynomial dim (fun _ => S deg) (pc_val c)) ->
        (forall g d, List.In (g, d) co -> polynomial dim mc g) -> polynomial dim mq q ->
        (forall k, Peano.lt k dim -> Peano.le (Nat.add (mc k) deg) (List.nth k ns 0%N) /\ Peano.le (mq k) (List.nth k ns 0%N)) ->
        forall X, pde co y X = q X)).

Lemma minimiser_solves Ar jvpn be f ns nC deg dim x0 xf w b u css phis co q :
  pde_setting jvpn be f ns nC deg dim x0 xf w b u css phis -> orders_fit dim co ->
  exists (A : 'M[R]_(m_N u, mtfc_num u false)) (c : 'cV[R]_(m_N u)),
  (forall args res, @runs_pde Ar _ _ jvpn u dim css phis co q args res -> res_is res args A c) /\
  forall xi, minimises (affine A c) xi -> exists y, solves_pde jvpn f ns deg dim u css phis co q (fun_of xi) y.
Proof.
move=> [Hj [Hdim [Hx [Hu [HnC [Hcs Hph]]]]]] Ho.
have [A [c [Hres HA]]] := @pde_facts Ar jvpn be f ns nC deg dim x0 xf w b u css phis co q Hj Hu Hdim HnC Hcs Ho.
exists A, c; split; first exact: Hres.
move=> xi Hm; pose Zf := Z f nC deg dim x0 xf css phis; exists (Zf (fun_of xi)).
have Hb := @best_pde jvpn be f ns nC deg dim x0 xf w b u css phis co q Hj Hu Hdim HnC A c xi HA Hm.
have Hbp : f <> FS -> forall p, total_degree dim deg p -> meets_all css (mpoly_at dim p) ->
     Rle (pmisfit co q (Zf (fun_of xi)) (m_x u) (m_N u)) (pmisfit co q (mpoly_at dim p) (m_x u) (m_N u)).
  move=> Hf p Hp Hmp.
  have [a Ha] := @Z_complete be f ns nC deg dim x0 xf w b u css phis Hu Hdim HnC Hx Hcs Hph p Hf Hp Hmp.
  by rewrite -(pmisfit_ext _ _ _ _ Ha); exact: Hb.
split; first exact: (@Z_surface jvpn Hj be f ns nC deg dim x0 xf w b u css phis Hu Hdim HnC _).
split; first by move=> k k' Hk; exact: (@Z_meets f nC deg dim x0 xf css phis Hdim Hcs Hph _ _ _ Hk).
split.
  move=> xi' y' Hy'; have E := @surface_Z jvpn Hj be f ns nC deg dim x0 xf w b u css phis Hu Hdim HnC _ _ Hy'.
  by rewrite (pmisfit_ext _ _ _ _ E); exact: Hb.
split; first exact: Hbp.
move=> Hf [p [Hp [Hmp /pmisfit_0 Hp0]]].
have Hpts : forall j, Peano.lt j (m_N u) -> pde co (Zf (fun_of xi)) (point_of (m_x u) j) = q (point_of (m_x u) j).
  apply/pmisfit_0; apply: Rle_antisym; first by rewrite -Hp0; exact: Hbp.
  exact: pmisfit_ge0.
split; first exact: Hpts.
move=> mc mq Hv Hc Hq Hm'.
exact: (@Z_everywhere be f ns nC deg dim x0 xf w b u css phis Hu Hdim HnC Hx Hcs Hph Hf (fun_of xi) co q mc mq Ho Hv Hc Hq Hm' Hpts).
Qed.

(** LS gives the expression that fits the equation best at the points, among all choices of the
    coefficients and, for the polynomial bases, among all polynomials of the basis' degree that meet
    the conditions.  An exact solution of that degree, if there is one, makes the fit exact at the
    points, and with polynomial data and enough points everywhere. *)
Theorem C95_ls : forall (Ar : Type) jvpn be f ns nC deg dim x0 xf w b u css phis co q,
  pde_setting jvpn be f ns nC deg dim x0 xf w b u css phis -> orders_fit dim co ->
  let n := mtfc_num u false in let N := m_N u in
  forall (jac : (seq (value R_realFieldType Ar n) -> 'cV[R]_N) -> seq (value R_realFieldType Ar n) -> 'M[R]_(N, n))
    (res : seq (value R_realFieldType Ar n) -> 'cV[R]_N) args J z consts s timer,
  differentiates jac -> runs_pde jvpn u dim css phis co q args res -> right_jac J args res -> valid_method s ->
  ascending consts -> List.Forall (fun k => Peano.le 1 k /\ Peano.le k (length args)) consts ->
  exists xi c y, vLS jac (Unk z) res args consts J s timer = Some (Unk xi, c) /\
    solves_pde jvpn f ns deg dim u css phis co q (fun_of xi) y.
Proof.
move=> Ar jvpn be f ns nC deg dim x0 xf w b u css phis co q Hset Ho n N jac res args J z consts s timer Hjac Hrun HJ Hs Ha Hc.
have [A [c [Hres Hmin]]] := @minimiser_solves Ar jvpn be f ns nC deg dim x0 xf w b u css phis co q Hset Ho.
have [xi [E Hm]] := ls_R z timer Hjac (Hres args res Hrun) HJ Hs Ha Hc.
have [y Hy] := Hmin xi Hm.
by exists xi, (List.rev consts), y.
Qed.
Print Assumptions C95_ls.

(** NLLS, started where the residual is above the tolerance, gives as good a fit. *)
Theorem C95_nlls : forall (Ar : Type) jvpn be f ns nC deg dim x0 xf w b u css phis co q,
  pde_setting jvpn be f ns nC deg dim x0 xf w b u css phis -> orders_fit dim co ->
  let n := mtfc_num u false in let N := m_N u in
  forall (jac : (seq (value R_realFieldType Ar n) -> 'cV[R]_N) -> seq (value R_realFieldType Ar n) -> 'M[R]_(N, n))
    (res : seq (value R_realFieldType Ar n) -> 'cV[R]_N) args J z consts s timer printOut cond tol maxIter fuel,
  differentiates jac -> runs_pde jvpn u dim css phis co q args res -> right_jac J args res -> valid_method s ->
  ascending consts -> List.Forall (fun k => Peano.le 1 k /\ Peano.le k (length args)) consts ->
  0 <= tol -> tol < 1 -> Z.le 1 maxIter -> Z.le maxIter (Z.of_nat fuel) -> tol < v_maxabs (res (Unk z :: args)) ->
  exists xi k out y, fst (vNLLS jac fuel (Unk z) res args consts J cond None tol maxIter s timer printOut)
      = NReturns (NResult (Unk xi) (Z.of_nat k) out) /\ (0 < k <= 2)%N /\
    solves_pde jvpn f ns deg dim u css phis co q (fun_of xi) y.
Proof.
move=> Ar jvpn be f ns nC deg dim x0 xf w b u css phis co q Hset Ho n N jac res args J z consts s timer printOut cond tol maxIter fuel
  Hjac Hrun HJ Hs Ha Hc Ht0 Ht1 HM1 HM2 Hr0.
have [A [c [Hres Hmin]]] := @minimiser_solves Ar jvpn be f ns nC deg dim x0 xf w b u css phis co q Hset Ho.
have Hn : (0 < n)%N by case: Hset => [Hj [Hdim [_ [Hu [HnC [Hcs _]]]]]]; exact: npos Hj Hu Hdim HnC Hcs.
have [xi [k [out [E [Hk Hm]]]]] := nlls_R timer Hjac (Hres args res Hrun) HJ Hs Ha Hc printOut cond Hn Ht0 Ht1 HM1 HM2 Hr0.
have [y Hy] := Hmin xi Hm.
by exists xi, k, out, y.
Qed.
Print Assumptions C95_nlls.

(** z_xy = 1, z(0, y) = 0, z(x, 0) = x *)
Lemma ex_setting : exists u, mkm Py (MB CP) [:: 3; 3]%N (MList [:: EInt (Zpos xH); EInt (Zpos xH)]) 2 2 [:: R0; R0] [:: R1; R1] [::] [::] = Some u /\
  pde_setting cjvpn Py CP [:: 3; 3]%N (MList [:: EInt (Zpos xH); EInt (Zpos xH)]) 2 2 [:: R0; R0] [:: R1; R1] [::] [::] u ex_css ex_phis.
Proof.
have Hlt k : Peano.lt k 2 -> Rlt (List.nth k [:: R0; R0] R0) (List.nth k [:: R1; R1] R0).
  by case: k => [|[|k]] Hk; [exact: Rlt_0_1|exact: Rlt_0_1|lia].
have [||||||||||u [Hu _]] := @c26_accept cjvpn jvpn_ok_case Py CP [:: 3; 3]%N (MList [:: EInt (Zpos xH); EInt (Zpos xH)]) [:: EInt (Zpos xH); EInt (Zpos xH)] 2 2 [:: R0; R0] [:: R1; R1] [::] [::]; try by [].
- by left.
- by lia.
- by case=> [|[|k]] Hk /=; lia.
- by move=> e [<-|[<-|[]]]; split=> //; case.
exists u; split; first exact: Hu.
split; first exact: jvpn_ok_case.
split; first lia.
split; first exact: Hlt.
split; first exact: Hu.
split; first by [].
by split; [exact: ex_consistent|exact: ex_switchings].
Qed.
(** LS with nine points solves it everywhere *)
Example C95_case : exists u, mkm Py (MB CP) [:: 3; 3]%N (MList [:: EInt (Zpos xH); EInt (Zpos xH)]) 2 2 [:: R0; R0] [:: R1; R1] [::] [::] = Some u /\
  exists (res : seq (value R_realFieldType unit (mtfc_num u false)) -> 'cV[R]_(m_N u)) xi c y,
  runs_pde cjvpn u 2 ex_css ex_phis ex_co (fun _ => R1) [:: Arg tt] res /\
  vLS (@diff_jac _ _ (m_N u) (mtfc_num u false)) (Unk 0) res [:: Arg tt] [:: 1%N] None Lstsq true = Some (Unk xi, c) /\
  surface cjvpn u 2 ex_css ex_phis (fun_of xi) y /\ meets_all ex_css y /\ forall X, pde ex_co y X = R1.
Proof.
have [u [Hu Hset]] := ex_setting.
exists u; split; first exact: Hu.
have Ho : orders_fit 2 ex_co by move=> a d [[_ <-]|[]]; exact: le_n.
have H12 : Peano.le 1 2 by lia.
pose zf (x : 'cV[R]_(mtfc_num u false)) := Z CP (MList [:: EInt (Zpos xH); EInt (Zpos xH)]) 2 2 [:: R0; R0] [:: R1; R1] ex_css ex_phis (fun_of x).
pose res (l : seq (value R_realFieldType unit (mtfc_num u false))) : 'cV[R]_(m_N u) :=
  if l is Unk x :: _ then \col_i Rminus (pde ex_co (zf x) (point_of (m_x u) i)) R1 else 0.
have Hrun : runs_pde cjvpn u 2 ex_css ex_phis ex_co (fun _ => R1) [:: Arg tt] res.
  move=> xi; exists (zf xi); split; first exact: (@Z_surface cjvpn jvpn_ok_case Py CP [:: 3; 3]%N _ 2 2 [:: R0; R0] [:: R1; R1] [::] [::] u ex_css ex_phis Hu H12 erefl).
  by move=> j /ltP Hj /=; rewrite -[j]/(nat_of_ord (Ordinal Hj)) fun_of_ord mxE.
have Hfa : List.Forall (fun k => Peano.le 1 k /\ Peano.le k (length [:: @Arg R_realFieldType unit (mtfc_num u false) tt])) [:: 1%N].
  by constructor; [split; apply/leP|constructor].
have Hasc : ascending [:: 1%N] by repeat constructor.
have Hj0 : right_jac None [:: Arg tt] res by [].
have Hv : valid_method Lstsq by [].
have [xi [c [y [E [Hsu [Hm [_ [_ Hex]]]]]]]] := @C95_ls unit cjvpn Py CP [:: 3; 3]%N _ 2 2 [:: R0; R0] [:: R1; R1] [::] [::] u ex_css ex_phis ex_co (fun _ => R1) Hset Ho
  (@diff_jac _ _ _ _) res [:: Arg tt] None 0 [:: 1%N] Lstsq true (@diff_jac_ok _ _ _ _) Hrun Hj0 Hv Hasc Hfa.
exists res, xi, c, y; split; first exact: Hrun.
split; first exact: E.
split; first exact: Hsu.
split; first exact: Hm.
have [||_ Hev] := Hex; first by [].
  by exists ex_sol; split; [exact: ex_degree|split; [exact: ex_meets|move=> j _; exact: ex_pde]].
have Hone m : Peano.le 1 m -> polynomial 2 (fun _ => m) (fun _ => R1).
  by move=> Hm1; apply: (@pol_prod 2 _ _ R1 (fun _ => [:: R1])) => [k _ //|X] /=; lra.
apply: (Hev (fun _ => 1%N) (fun _ => 1%N)).
- move=> k k' /ex_among [[_ ->]|[_ ->]]; [exact: pol_zero|exact: ex_x0].
- by move=> g d [[<- _]|[]]; apply: Hone.
- exact: Hone.
- by case=> [|[|k]] Hk /=; lia.
Qed.
