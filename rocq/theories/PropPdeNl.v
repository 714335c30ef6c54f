(** C101: nonlinear partial differential equations, solved with a constrained expression in several
    variables and NLLS. *)
From Coq Require Import ZArith Lia Reals Lra.
From Coquelicot Require Import Coquelicot.
From mathcomp Require Import all_ssreflect all_algebra.
From Verif Require Import Base ModelPe SpecPe ProofPe ModelSolve SpecSolve ProofSolve ModelPinv SpecPinv ProofPinv
  ModelAffine SpecAffine ProofAffine PropAffine SpecNewton ProofNewton ProofNewton2 ProofNewton3 PropNewton SpecIdle ProofNewton4 ProofNewton5 PropIdle.
From Verif Require Import Numbers ModelBFPy SpecBasis ModelND SpecND ProofND2 ModelELM SpecELM ModelNELM SpecNELM ProofNELM2 ModelUtfc SpecUtfc ModelMtfc SpecMtfc ProofMtfc ProofMtfc3 SpecNColl PropNELM PropNColl ProofColl ProofRecover
  RealStruct SpecRecover PropRecover ModelOde SpecOde ProofOde PropOde PropOdeNl ModelPde SpecPde ProofPde ProofPde2 ProofPde3 PropPde ProofOdeNl2 ModelPdeNl SpecPdeNl ProofPdeNl ProofPdeNl2.
Set Implicit Arguments.
Unset Strict Implicit.
Unset Printing Implicit Defensive.
Import GRing.Theory Num.Theory.
Local Open Scope ring_scope.

(** the residual function handed to the solver is that of the script *)
Definition runs_pnl (Ar : Type) N n jvpn (u : mtfc (T:=R)) dim css phis co ca cb q (args : seq (value R_realFieldType Ar n))
    (res : seq (value R_realFieldType Ar n) -> 'cV[R]_N) : Prop :=
  forall xi : 'cV[R]_n, residual_pnl jvpn u dim css phis co ca cb q (fun_of xi) (fun_of (res (Unk xi :: args))).

Section Main.
Variables (Ar : Type) (jvpn : (seq R -> R) -> seq R -> seq R -> R) (be : backend) (f : fam) (ns : seq nat) (nC : mnc_arg) (deg dim : nat).
Variables (x0 xf w b : seq R) (u : mtfc (T:=R)) (css : seq (seq pcond)) (phis : seq (seq (seq R))) (co ca cb : seq ((pt -> R) * seq nat)) (q : pt -> R).
Variables (xip : nat -> R) (p : pt -> R).
Local Notation N := (m_N u).
Local Notation n := (mtfc_num u false).
Variables (jac : (seq (value R_realFieldType Ar n) -> 'cV[R]_N) -> seq (value R_realFieldType Ar n) -> 'M[R]_(N, n)).
Variables (res : seq (value R_realFieldType Ar n) -> 'cV[R]_N) (args : seq (value R_realFieldType Ar n)).
Variables (J : option (seq (value R_realFieldType Ar n) -> 'M[R]_(N, n))) (consts : seq nat) (s : method_).
Hypothesis Hset : pde_setting jvpn be f ns nC deg dim x0 xf w b u css phis.
Hypotheses (Ho : orders_fit dim co) (Hoa : orders_fit dim ca) (Hob : orders_fit dim cb).
Hypotheses (Hjac : takes_partials jac) (HJ : right_partials J args res) (Hrun : runs_pnl jvpn u dim css phis co ca cb q args res).
Hypotheses (Hs : valid_method s) (Ha : ascending consts) (Hc : List.Forall (fun k => Peano.le 1 k /\ Peano.le k (length args)) consts).
Hypothesis Hp : surface jvpn u dim css phis xip p.
Hypothesis Hsol : forall j, Peano.lt j N -> pnl co ca cb p (point_of (m_x u) j) = q (point_of (m_x u) j).
Hypothesis Hiso : pisolated (fun z => exists xi, surface jvpn u dim css phis xi z) co ca cb (m_x u) N p.
Local Notation Zf := (Z f nC deg dim x0 xf css phis).
Local Notation pnt := (point_of (m_x u)).

Let Hj : jvpn_ok jvpn := proj1 Hset.
Let Hdim : Peano.le 1 dim := proj1 (proj2 Hset).
Let Hx := proj1 (proj2 (proj2 Hset)).
Let Hu := proj1 (proj2 (proj2 (proj2 Hset))).
Let HnC := proj1 (proj2 (proj2 (proj2 (proj2 Hset)))).
Let Hcs := proj1 (proj2 (proj2 (proj2 (proj2 (proj2 Hset))))).
Let Hph := proj2 (proj2 (proj2 (proj2 (proj2 (proj2 Hset))))).

Lemma pde_minus c z z' X : orders_fit dim c -> separable dim z -> separable dim z' ->
  pde c (fun X => Rminus (z X) (z' X)) X = Rminus (pde c z X) (pde c z' X).
Proof.
move=> Hoc Hz Hz'; have Hm : separable dim (fun X => Rmult (Ropp R1) (z' X)) by apply: sep_scal.
rewrite (@pde_ext c _ (fun X => Rplus (z X) (Rmult (Ropp R1) (z' X)))); last by move=> Y; lra.
by rewrite (pde_plus _ _ _ _ _ Hoc Hz Hm) (pde_scal c (Ropp R1) z' X); lra.
Qed.

Lemma Z_bound d : Peano.le (List.length d) dim -> exists K : R, 0 <= K /\ forall (xi xi' : 'cV[R]_n) e,
  @within R_realFieldType n (xi - xi') e -> close_on dim x0 xf d (Zf (fun_of xi)) (Zf (fun_of xi')) (Rmult K e).
Proof.
move=> Hd; pose one : seq ((pt -> R) * seq nat) := [:: (fun _ => R1, d)].
have Hone : orders_fit dim one by move=> g d' [[_ <-]|[]].
pose W v := stages 0 phis (List.map (List.map zero_val) css) (G f dim x0 xf v).
pose Ws := List.map (fun v => pdiff 0 d (W v)) (mK (MB f) dim deg nC false).
have [K [HK Hb]] : exists K : R, Rle 0 K /\ forall a a' e, (forall i, Peano.lt i (List.length Ws) -> Rle (Rabs (Rminus (a i) (a' i))) e) ->
    forall X, in_box dim x0 xf X -> Rle (Rabs (Rminus (row_comb a (List.map (fun g => g X) Ws)) (row_comb a' (List.map (fun g => g X) Ws)))) (Rmult K e).
  apply: (comb_bounded dim x0 xf Hx) => g /List.in_map_iff [v [<- _]].
  apply: pdiff_sep; first exact: Hd.
  apply: stages_sep; [by rewrite List.map_length (proj1 Hcs)|by apply: zeros_ok; exact: (o_vals dim css Hcs)|exact: G_sep].
exists K; split; first by apply/RlebP.
move=> xi xi' e Hw X HX.
have E (a : nat -> R) : pdiff 0 d (Zf a) X = Rplus (pdiff 0 d (stages 0 phis css (fun _ => R0)) X) (row_comb a (List.map (fun g => g X) Ws)).
  rewrite -(pde_one d) (Z_pde f nC deg dim x0 xf css phis Hdim Hcs _ _ _ Hone) (pde_one d) /Ws List.map_map; congr Rplus; congr row_comb.
  by apply: List.map_ext => v; rewrite (pde_one d).
rewrite !E.
have -> : forall c s1 s2 : R, Rminus (Rplus c s1) (Rplus c s2) = Rminus s1 s2 by move=> *; lra.
apply: Hb => // i Hi.
have Hi' : (i < n)%N by apply/ltP; move: Hi; rewrite /Ws List.map_length (@o_num jvpn Hj be f ns nC deg dim x0 xf w b u css Hu Hdim HnC false).
rewrite -[i]/(nat_of_ord (Ordinal Hi')) !fun_of_ord.
by have := Hw (Ordinal Hi'); rewrite !mxE => /RlebP.
Qed.

Lemma pnl_main : exists radius c : R, [/\ Rlt 0 radius, Rlt 0 c &
  forall d, Peano.le (List.length d) dim -> exists K C : R, [/\ Rle 0 K, Rle 0 C &
  forall z : 'cV[R]_n, (forall i : 'I_n, Rle (Rabs (Rminus (z i 0) (xip i))) radius) ->
  forall timer printOut cnd (tol : R) maxIter fuel, Rlt 0 tol -> Z.le maxIter (Z.of_nat fuel) -> Peano.le 1 fuel ->
  exists (xi : 'cV[R]_n) k out y,
    [/\ fst (vNLLS jac fuel (Unk z) res args consts J cnd None tol maxIter s timer printOut) = NReturns (NResult (Unk xi) (Z.of_nat k) out),
      surface jvpn u dim css phis (fun_of xi) y, meets_all css y,
      close_on dim x0 xf d y p (Rdiv K (pow 2 (2 ^ k))) &
      forall K', Rlt tol 1 -> Rle 2 (Rmult (Rmult tol c) (pow 2 (2 ^ K'))) -> Z.lt (Z.of_nat K'.+1) maxIter ->
        (k <= K'.+1)%N /\ close_on dim x0 xf d y p (Rmult C tol)]]].
Proof.
have [A [a [_ EA]]] := @pde_facts unit jvpn be f ns nC deg dim x0 xf w b u css phis co q Hj Hu Hdim HnC Hcs Ho.
have [B [b' [_ EB]]] := @pde_facts unit jvpn be f ns nC deg dim x0 xf w b u css phis ca (fun _ => R0) Hj Hu Hdim HnC Hcs Hoa.
have [D [d' [_ ED]]] := @pde_facts unit jvpn be f ns nC deg dim x0 xf w b u css phis cb (fun _ => R0) Hj Hu Hdim HnC Hcs Hob.
pose r := @prods R_realFieldType N n A B D a b' d'; pose jf := @dprods R_realFieldType N n A B D a b' d'.
have Hres xi : res (Unk xi :: args) = r xi.
  have [z [Hz Hr]] := Hrun xi; have Ez := @surface_Z jvpn Hj be f ns nC deg dim x0 xf w b u css phis Hu Hdim HnC _ _ Hz.
  apply/matrixP => i j; rewrite ord1 [RHS]mxE.
  have Hi : Peano.lt i N by apply/ltP.
  have := Hr i Hi; rewrite fun_of_ord => ->.
  have := EA xi i; have := EB xi i; have := ED xi i; rewrite /affine => -> -> ->.
  rewrite !(pde_ext _ z _ _ Ez) -RmE -RaE /point_of; lra.
have Hsw : @solves_with R_realFieldType Ar N n jac res args J r jf by apply: solves_prods.
pose xs : 'cV[R]_n := \col_j xip j.
have Ep X : Zf (fun_of xs) X = p X.
  rewrite /xs (@Z_col jvpn be f ns nC deg dim x0 xf w b u css phis Hj Hu Hdim HnC).
  by rewrite -(@surface_Z jvpn Hj be f ns nC deg dim x0 xf w b u css phis Hu Hdim HnC _ _ Hp).
have Hzs xi : surface jvpn u dim css phis xi (Zf xi) by exact: (@Z_surface jvpn Hj be f ns nC deg dim x0 xf w b u css phis Hu Hdim HnC _).
have Hsep xi : separable dim (Zf xi) by exact: (@Z_sep f nC deg dim x0 xf css phis Hdim Hcs _).
have [L [HL0 HL]] := @C99_products R_realFieldType N n A B D a b' d' xs 1.
have Hr0 : r xs = 0.
  apply/matrixP => i j; rewrite ord1 [RHS]mxE mxE.
  have := EA xs i; have := EB xs i; have := ED xs i; rewrite /affine => -> -> ->.
  have Hi : Peano.lt i N by apply/ltP.
  by rewrite !(pde_ext _ _ _ _ Ep) -(Hsol Hi) /pnl -RmE -RaE -[0]/R0; lra.
have Hker (h : 'cV[R]_n) : jf xs *m h = 0 -> forall X, Zf (fun_of (xs + h)) X = p X.
  move=> Hh; apply: Hiso; first by exists (fun_of (xs + h)).
  move=> j /ltP Hj'; pose i := Ordinal Hj'; rewrite -[j]/(nat_of_ord i) /pnl_lin.
  have Hd cc : orders_fit dim cc -> pde cc (fun X => Rminus (Zf (fun_of (xs + h)) X) (p X)) (pnt i) =
      Rminus (pde cc (Zf (fun_of (xs + h))) (pnt i)) (pde cc (Zf (fun_of xs)) (pnt i)).
    move=> Hoc; rewrite -pde_minus //; apply: pde_ext => Y; by rewrite Ep.
  rewrite !Hd // -!(pde_ext _ _ _ _ Ep).
  have := congr1 (fun M : 'cV[R]_N => M i 0) Hh; rewrite dprods_dir [RHS]mxE.
  have add_h (M : 'M[R]_(N, n)) (m : 'cV[R]_N) : (M *m h) i 0 = (M *m (xs + h) + m) i 0 - (M *m xs + m) i 0.
    by rewrite mulmxDr -[_ + _ + m]addrA [_ + m]addrC addrA [(_ + (_ *m h) : 'cV_N) _ _]mxE addrAC subrr add0r.
  rewrite (add_h A a) (add_h B b') (add_h D d').
  have := EA xs i; have := EB xs i; have := ED xs i; rewrite /affine => -> -> ->.
  have := EA (xs + h) i; have := EB (xs + h) i; have := ED (xs + h) i; rewrite /affine => -> -> ->.
  by rewrite -!RsE -!RaE -!RmE -[0]/R0 => E; lra.
have Hidle : forall k : 'cV[R]_n, jf xs *m k = 0 -> @idle R_realFieldType N n r jf k.
  move=> k Hk; have Ek X : Zf (fun_of (xs + k)) X = Zf (fun_of xs) X by rewrite Hker // Ep.
  have Hz (M : 'M[R]_(N, n)) (m : 'cV[R]_N) cc q' :
    (forall (xi : 'cV[R]_n) (i : 'I_N), affine M m xi i 0 = Rminus (pde cc (Zf (fun_of xi)) (pnt i)) (q' (pnt i))) -> M *m k = 0.
    move=> EM; have : affine M m (xs + k) = affine M m xs.
      by apply/matrixP => i j; rewrite ord1 !EM (pde_ext _ _ _ _ Ek).
    by rewrite /affine mulmxDr => /addIr /(congr1 (fun v => v - M *m xs)); rewrite subrr addrC addKr.
  by apply: idle_prods; [exact: (Hz _ _ _ q EA)|exact: (Hz _ _ _ (fun _ => R0) EB)|exact: (Hz _ _ _ (fun _ => R0) ED)].
have [radius [c [C [Hrad Hcp HC Hgo]]]] := C99_idle Hsw Hs Ha Hc HL Hr0 HL0 ltr01 Hidle.
have Hc' : Rlt 0 c by move/RltbP: Hcp.
have HC' : Rlt 0 C by move/RltbP: HC.
exists radius, c; split=> //; first by move/RltbP: Hrad.
move=> d Hd; have [K [HK Hbnd]] := Z_bound Hd.
have HK' : Rle 0 K by move/RlebP: HK.
exists (Rdiv K c), (Rmult K C); split.
- by apply: Rmult_le_pos => //; left; apply: Rinv_0_lt_compat.
- by apply: Rmult_le_pos => //; left.
move=> z Hz timer printOut cnd tol maxIter fuel Htol HM Hfl.
have Htol' : 0 < tol by apply/RltbP.
have Hz' : @within R_realFieldType n (z - xs) radius.
  by move=> i; apply/RlebP; rewrite !mxE; exact: Hz.
have [xs' [Er' Ek' _ Hgo']] := Hgo z Hz'.
have Ep' X : p X = Zf (fun_of xs') X by rewrite -(Hker _ Ek') addrC subrK.
have [xi [k [out [E1 _ E3 E4]]]] := Hgo' timer printOut cnd tol maxIter fuel Htol' HM Hfl.
have Hcl e e' : @within R_realFieldType n (xi - xs') e -> Rmult K e = e' -> close_on dim x0 xf d (Zf (fun_of xi)) p e'.
  move=> Hw <- X HX; have := Hbnd _ _ _ Hw X HX.
  by rewrite (pdiff_ext d 0 p _ X Ep').
exists xi, k, out, (Zf (fun_of xi)); split=> //.
- by move=> l cc Hl; exact: (@Z_meets f nC deg dim x0 xf css phis Hdim Hcs Hph _ _ _ Hl).
- apply: Hcl E3 _.
  have Hpw : Rlt 0 (pow 2 (2 ^ k)) by apply: pow_lt; lra.
  rewrite RinvE RpowE; last exact: Rmult_lt_0_compat.
  rewrite -RmE Rinv_mult_distr; [|exact: Rgt_not_eq|exact: Rgt_not_eq].
  by rewrite /Rdiv Rmult_assoc.
move=> K' Ht1 H2 HM'.
have Ht1' : tol < 1 by apply/RltbP.
have H2' : 2%:R <= tol * c * 2%:R ^+ (2 ^ K') by apply/RlebP; rewrite RpowE R2E.
have [Hk Hw] := E4 K' Ht1' H2' HM'; split=> //.
by apply: Hcl Hw _; rewrite -RmE -Rmult_assoc.
Qed.
End Main.

(** ** C101 *)
(** Let [p] be what the script's expression gives for the coefficients [xip], let it satisfy the equation
    at the points, and let the linearised equation at [p] have no other solution among the differences
    of such expressions.  Then NLLS started near [xip] returns after [k] iterations the coefficients of
    a function that meets all conditions at all points and is within [K / 2^(2^k)] of [p] on the whole
    box, and so are its derivatives of any orders.  With enough iterations allowed it stops by itself,
    within a multiple of [tol] of [p].  Other coefficients may give [p] as well. *)
Theorem C101_converges : forall (Ar : Type) jvpn be f ns nC deg dim x0 xf w b u css phis co ca cb q xip p,
  pde_setting jvpn be f ns nC deg dim x0 xf w b u css phis -> orders_fit dim co -> orders_fit dim ca -> orders_fit dim cb ->
  surface jvpn u dim css phis xip p ->
  (forall j, Peano.lt j (m_N u) -> pnl co ca cb p (point_of (m_x u) j) = q (point_of (m_x u) j)) ->
  pisolated (fun z => exists xi, surface jvpn u dim css phis xi z) co ca cb (m_x u) (m_N u) p ->
  let n := mtfc_num u false in let N := m_N u in
  forall (jac : (seq (value R_realFieldType Ar n) -> 'cV[R]_N) -> seq (value R_realFieldType Ar n) -> 'M[R]_(N, n))
    (res : seq (value R_realFieldType Ar n) -> 'cV[R]_N) args J consts s,
  takes_partials jac -> runs_pnl jvpn u dim css phis co ca cb q args res -> right_partials J args res -> valid_method s ->
  ascending consts -> List.Forall (fun k => Peano.le 1 k /\ Peano.le k (length args)) consts ->
  exists radius c : R, [/\ Rlt 0 radius, Rlt 0 c &
  forall d, Peano.le (List.length d) dim -> exists K C : R, [/\ Rle 0 K, Rle 0 C &
  forall z : 'cV[R]_n, (forall i : 'I_n, Rle (Rabs (Rminus (z i 0) (xip i))) radius) ->
  forall timer printOut cnd (tol : R) maxIter fuel, Rlt 0 tol -> Z.le maxIter (Z.of_nat fuel) -> Peano.le 1 fuel ->
  exists (xi : 'cV[R]_n) k out y,
    [/\ fst (vNLLS jac fuel (Unk z) res args consts J cnd None tol maxIter s timer printOut) = NReturns (NResult (Unk xi) (Z.of_nat k) out),
      surface jvpn u dim css phis (fun_of xi) y, meets_all css y,
      close_on dim x0 xf d y p (Rdiv K (pow 2 (2 ^ k))) &
      forall K', Rlt tol 1 -> Rle 2 (Rmult (Rmult tol c) (pow 2 (2 ^ K'))) -> Z.lt (Z.of_nat K'.+1) maxIter ->
        (k <= K'.+1)%N /\ close_on dim x0 xf d y p (Rmult C tol)]]].
Proof.
move=> Ar jvpn be f ns nC deg dim x0 xf w b u css phis co ca cb q xip p Hset Ho Hoa Hob Hp Hsol Hiso n N jac res args J consts s Hjac Hrun HJ Hs Ha Hc.
exact: (pnl_main Hset Ho Hoa Hob Hjac HJ Hrun Hs Ha Hc Hp Hsol Hiso).
Qed.
Print Assumptions C101_converges.

(** A polynomial of the basis' degree that meets the conditions is what the expression gives for some
    coefficients: the same for such a solution. *)
Theorem C101_polynomial : forall (Ar : Type) jvpn be f ns nC deg dim x0 xf w b u css phis co ca cb q m,
  pde_setting jvpn be f ns nC deg dim x0 xf w b u css phis -> orders_fit dim co -> orders_fit dim ca -> orders_fit dim cb ->
  f <> FS -> total_degree dim deg m -> meets_all css (mpoly_at dim m) ->
  let p := mpoly_at dim m in
  (forall j, Peano.lt j (m_N u) -> pnl co ca cb p (point_of (m_x u) j) = q (point_of (m_x u) j)) ->
  pisolated (fun z => exists xi, surface jvpn u dim css phis xi z) co ca cb (m_x u) (m_N u) p ->
  let n := mtfc_num u false in let N := m_N u in
  forall (jac : (seq (value R_realFieldType Ar n) -> 'cV[R]_N) -> seq (value R_realFieldType Ar n) -> 'M[R]_(N, n))
    (res : seq (value R_realFieldType Ar n) -> 'cV[R]_N) args J consts s,
  takes_partials jac -> runs_pnl jvpn u dim css phis co ca cb q args res -> right_partials J args res -> valid_method s ->
  ascending consts -> List.Forall (fun k => Peano.le 1 k /\ Peano.le k (length args)) consts ->
  exists (xip : nat -> R) (radius c : R), [/\ surface jvpn u dim css phis xip p, Rlt 0 radius, Rlt 0 c &
  forall d, Peano.le (List.length d) dim -> exists K C : R, [/\ Rle 0 K, Rle 0 C &
  forall z : 'cV[R]_n, (forall i : 'I_n, Rle (Rabs (Rminus (z i 0) (xip i))) radius) ->
  forall timer printOut cnd (tol : R) maxIter fuel, Rlt 0 tol -> Z.le maxIter (Z.of_nat fuel) -> Peano.le 1 fuel ->
  exists (xi : 'cV[R]_n) k out y,
    [/\ fst (vNLLS jac fuel (Unk z) res args consts J cnd None tol maxIter s timer printOut) = NReturns (NResult (Unk xi) (Z.of_nat k) out),
      surface jvpn u dim css phis (fun_of xi) y, meets_all css y,
      close_on dim x0 xf d y p (Rdiv K (pow 2 (2 ^ k))) &
      forall K', Rlt tol 1 -> Rle 2 (Rmult (Rmult tol c) (pow 2 (2 ^ K'))) -> Z.lt (Z.of_nat K'.+1) maxIter ->
        (k <= K'.+1)%N /\ close_on dim x0 xf d y p (Rmult C tol)]]].
Proof.
move=> Ar jvpn be f ns nC deg dim x0 xf w b u css phis co ca cb q m Hset Ho Hoa Hob Hf Hm Hmeet p Hsol Hiso n N jac res args J consts s Hjac Hrun HJ Hs Ha Hc.
have [_ H2] := C95_conditions Hset; have [xip Hp] := H2 Hf m Hm Hmeet.
have [radius [c [H3 H4 H5]]] := C101_converges Hset Ho Hoa Hob Hp Hsol Hiso Hjac Hrun HJ Hs Ha Hc.
by exists xip, radius, c; split.
Qed.
Print Assumptions C101_polynomial.


(** z_xy + z z_y = 1 + x^2 (1 + y), z(0, y) = 0, z(x, 0) = x: NLLS with nine points, degree 2 and [maxIter] 10 finds
    z = x + x y from nearby coefficients, to any tolerance that ten iterations can give, on the whole square; five
    coefficients are sought of which one matters. *)
Example C101_case : exists u (xip : nat -> R) (radius c C : R)
    (res : seq (value R_realFieldType unit (mtfc_num u false)) -> 'cV[R]_(m_N u)),
  [/\ mkm Py (MB CP) [:: 3; 3]%N (MList [:: EInt (Zpos xH); EInt (Zpos xH)]) 2 2 [:: R0; R0] [:: R1; R1] [::] [::] = Some u,
      runs_pnl cjvpn u 2 ex_css ex_phis ex_co ex_ca ex_cb ex_q [::] res,
      surface cjvpn u 2 ex_css ex_phis xip (fun X => Rplus (Rmult (X 0%N) (X 1%N)) (X 0%N)), Rlt 0 radius /\ Rlt 0 c &
      forall (z : 'cV[R]_(mtfc_num u false)) (tol : R), (forall i : 'I__, Rle (Rabs (Rminus (z i 0) (xip i))) radius) ->
      Rlt 0 tol -> Rlt tol 1 -> Rle 2 (Rmult (Rmult tol c) (pow 2 (2 ^ 8))) ->
      exists xi k out y,
        [/\ fst (vNLLS (@derive_jac unit _ _) 10 (Unk z) res [::] [::] None None None tol 10 Pinv false false) = NReturns (NResult (Unk xi) (Z.of_nat k) out),
          (k <= 9)%N, surface cjvpn u 2 ex_css ex_phis (fun_of xi) y, meets_all ex_css y &
          forall X, in_box 2 [:: R0; R0] [:: R1; R1] X -> Rle (Rabs (Rminus (y X) (Rplus (Rmult (X 0%N) (X 1%N)) (X 0%N)))) (Rmult C tol)]].
Proof.
have [u [Hu Hset]] := ex_setting; have [Ho [Hoa Hob]] := ex_orders.
have H12 : Peano.le 1 2 by lia.
pose zf (x : 'cV[R]_(mtfc_num u false)) := Z CP (MList [:: EInt (Zpos xH); EInt (Zpos xH)]) 2 2 [:: R0; R0] [:: R1; R1] ex_css ex_phis (fun_of x).
pose res (l : seq (value R_realFieldType unit (mtfc_num u false))) : 'cV[R]_(m_N u) :=
  if l is Unk x :: _ then \col_i Rminus (pnl ex_co ex_ca ex_cb (zf x) (point_of (m_x u) i)) (ex_q (point_of (m_x u) i)) else 0.
have Hrun : runs_pnl cjvpn u 2 ex_css ex_phis ex_co ex_ca ex_cb ex_q [::] res.
  move=> xi; exists (zf xi); split; first exact: (@Z_surface cjvpn jvpn_ok_case Py CP [:: 3; 3]%N _ 2 2 [:: R0; R0] [:: R1; R1] [::] [::] u ex_css ex_phis Hu H12 erefl).
  by move=> j /ltP Hj /=; rewrite -[j]/(nat_of_ord (Ordinal Hj)) fun_of_ord mxE.
have Hne : CP <> FS by [].
have Hj0 : @right_partials unit _ _ None [::] res by [].
have [xip [radius [c [Hp Hrad Hc Hgo]]]] := @C101_polynomial unit cjvpn Py CP [:: 3; 3]%N _ 2 2 [:: R0; R0] [:: R1; R1] [::] [::] u ex_css ex_phis ex_co ex_ca ex_cb ex_q
  ex_sol Hset Ho Hoa Hob Hne ex_degree ex_meets (fun j _ => ex_nl_solved _) (ex_isolated _ _ _ jvpn_ok_case Hu) (@derive_jac unit _ _) res [::] None [::] Pinv
  (@derive_jac_ok _ _ _) Hrun Hj0 ltac:(by []) ltac:(constructor) ltac:(constructor).
have [|K [C [_ _ Hz]]] := Hgo [::]; first by rewrite /=; lia.
exists u, xip, radius, c, C, res; split=> //.
  by case: Hp => g [Hg Eg]; exists g; split=> // X; rewrite -Eg ex_sol_at.
move=> z tol Hzr Ht0 Ht1 Hbig.
have HM : Z.le (Z.succ 9) (Z.of_nat 10) by lia.
have Hfl : Peano.le 1 10 by lia.
have [xi [k [out [y [E1 E2 E3 _ E5]]]]] := Hz z Hzr false false None tol (Z.succ 9) 10%N Ht0 HM Hfl.
have [|Hk Hy] := E5 8%N Ht1 Hbig; first by lia.
exists xi, k, out, y; split=> // X HX.
by rewrite -ex_sol_at; exact: (Hy X HX).
Qed.
