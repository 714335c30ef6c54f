(** C90: least squares at the points of a grid recovers functions of several variables exactly. *)
From Coq Require Import ZArith Lia Reals Lra Permutation.
From Coquelicot Require Import Coquelicot.
From mathcomp Require Import all_ssreflect all_algebra.
From Verif Require Import Base ModelPe SpecPe ProofPe ModelSolve SpecSolve ProofSolve ModelPinv SpecPinv ProofPinv
  ModelAffine SpecAffine ProofAffine PropAffine.
From Verif Require Import Numbers ModelBFPy SpecBasis ModelELM SpecELM ModelND SpecND ModelNELM SpecNELM ModelUtfc SpecUtfc
  ModelMtfc SpecMtfc SpecColl RealStruct SpecRecover PropRecover SpecNColl ProofNRecover SpecNRecover PropNELM PropNColl.
Set Implicit Arguments.
Unset Strict Implicit.
Unset Printing Implicit Defensive.
Import GRing.Theory Num.Theory.
Local Open Scope ring_scope.

Lemma mx_rown m n (h : nat -> seq R) k c (x : 'cV[R]_n) (i : 'I_m) :
  (forall t, List.length (h t) = n) ->
  (mx_of m n (Mat k c (List.map h (List.seq 0 m))) *m x) i 0 = row_comb (fun_of x) (h i).
Proof.
move=> Hh; rewrite mxE (row_comb_sum _ (Hh _)); apply: eq_bigr => j _.
rewrite mxE fun_of_ord /=; congr (nth _ _ _ * _).
have E : List.nth_error (List.map h (List.seq 0 m)) i = Some (h i).
  by apply: List.map_nth_error; rewrite (List.nth_error_nth' _ 0%N) ?List.seq_length ?List.seq_nth //; apply/ltP.
by elim: (List.map h _) (nat_of_ord i) (h i) E => [|y l IH] [|q] v //=; [case|apply: IH].
Qed.

Section Recover.
Variables (jvpn : (seq R -> R) -> seq R -> seq R -> R) (be : backend) (f : fam) (n : seq nat) (nC : mnc_arg) (deg dim : nat).
Variables (x0 xf w b : seq R) (u : mtfc (T:=R)) (full : bool).
Local Notation N := (SpecMtfc.product n).
Local Notation K := (mtfc_num u full).
Local Notation zeros := (List.repeat 0%N dim).
Hypothesis Hj : jvpn_ok jvpn.
Hypothesis Hu : mkm be (MB f) n nC deg dim x0 xf w b = Some u.
Hypothesis Ha : argsm (MB f) nC deg dim x0 xf w b.
Hypothesis Hax : forall k, Peano.lt k dim ->
  Rlt (List.nth k x0 R0) (List.nth k xf R0) /\ Peano.le 2 (List.nth k n 0%N) /\ enough f deg (List.nth k n 0%N).

Lemma nmatrix_facts : exists M, mtfc_H ROps RFun jvpn u (m_x u) zeros full = Some M /\
  (forall g xa, represents jvpn u dim full g xa ->
    affine (mx_of N K M) (- nvalues N g (m_x u)) xa = 0 /\
    (forall xi, affine (mx_of N K M) (- nvalues N g (m_x u)) xi = 0 -> xi = xa) /\
    forall d, List.length d = dim -> exists y, (forall ks, Permutation ks (List.seq 0 dim) -> mixed d ks g y) /\
      forall X, value_at jvpn u dim full d xa X (y X)) /\
  (full = true -> f <> FS -> forall q, total_degree dim deg q -> exists xa, represents jvpn u dim full (mpoly_at dim q) xa).
Proof.
have [|||h [HH [Hl [Hloc [Hm [Hsh [Hi Hs]]]]]]] := @obj_rows jvpn Hj be f n nC deg dim x0 xf w b u Hu Ha _ _ _ full;
  try by move=> k /Hax [? []].
have Hone X : shaped (one_point dim X) dim 1.
  by split=> //; split=> //; split; rewrite /= ?List.map_length ?List.seq_length // => r /List.in_map_iff [k [<-]].
have Hpt d X : h d (point_of (md (one_point dim X)) 0) = h d X.
  apply: Hloc => k Hk; rewrite /point_of /=.
  have E : List.nth_error (List.map (fun k => [:: X k]) (List.seq 0 dim)) k = Some [:: X k].
    by apply: List.map_nth_error; rewrite (List.nth_error_nth' _ 0%N) ?List.seq_length ?List.seq_nth.
  by rewrite (List.nth_error_nth _ _ _ E).
have Hval d (xa : 'cV[R]_K) X : List.length d = dim -> value_at jvpn u dim full d xa X (row_comb (fun_of xa) (h d X)).
  move=> Hd; eexists; split; first by apply: HH => //; exact: Hone.
  by apply/matrixP=> i j; rewrite !ord1 mx_rown // Hpt mxE.
have Huniq d (xa : 'cV[R]_K) X v : List.length d = dim -> value_at jvpn u dim full d xa X v -> v = row_comb (fun_of xa) (h d X).
  move=> Hd [Mt [E1 E2]]; have [Mt' [E3 E4]] := Hval d xa X Hd.
  move: E3; rewrite E1 => -[Emt]; move: E4; rewrite -Emt E2 => /matrixP/(_ 0 0); by rewrite !mxE.
exists (Mat N K (List.map (fun j => h zeros (point_of (m_x u) j)) (List.seq 0 N))); split.
  by apply: (HH zeros N (Mat dim N (m_x u))) => //; rewrite List.repeat_length.
set A := mx_of N K _.
have HA (x : 'cV[R]_K) i : (A *m x) i 0 = row_comb (fun_of x) (h zeros (point_of (m_x u) i)).
  by rewrite (mx_rown (h := fun j => h zeros (point_of (m_x u) j))).
have Hz0 : List.length zeros = dim by rewrite List.repeat_length.
split.
  move=> g xa Hg.
  have Eg X : g X = row_comb (fun_of xa) (h zeros X) by apply: Huniq.
  have Exa : affine A (- nvalues N g (m_x u)) xa = 0.
    by apply/matrixP=> i j; rewrite /affine ord1 mxE HA -Eg !mxE subrr.
  split=> //; split.
    move=> xi Hxi; apply/eqP; rewrite -subr_eq0; apply/eqP.
    have Hz : A *m (xi - xa) = 0.
      move: Hxi Exa; rewrite /affine => /eqP; rewrite addr_eq0 => /eqP E1 /eqP; rewrite addr_eq0 => /eqP E2.
      by rewrite mulmxBr E1 E2 subrr.
    apply/matrixP=> i j; rewrite ord1 [RHS]mxE -fun_of_ord.
    apply: (Hi (fun_of (xi - xa))); last by apply/ltP; exact: ltn_ord.
    move=> q /ltP Hq; have := HA (xi - xa) (Ordinal Hq); by rewrite Hz mxE /= => <-.
  move=> d Hd; exists (fun X => row_comb (fun_of xa) (h d X)); split=> [ks Hp|X]; last exact: Hval.
  by apply: ProofMtfc.mixed_ext (Hm (fun_of xa) d ks Hp) => X.
move=> Hfull Hf q Hq; have [a Hap] := Hs Hfull Hf q Hq.
exists (\col_j a j) => X.
have -> : mpoly_at dim q X = row_comb (fun_of (\col_(j < K) a j)) (h zeros X); last exact: Hval.
rewrite Hap !(row_comb_sum _ (Hl zeros X)); apply: eq_bigr => j _.
by rewrite fun_of_ord mxE.
Qed.
End Recover.

(** ** C90.  [LS] on the residual [H(x) xi - g(x)] at the points of the grid, with [g] any function
    that the kept functions represent: the coefficients are the ones of [g], so the matrices of
    [H] times them give [g] and its partial derivatives at every point of space; *)
Theorem C90_ls_exact : forall (Ar : Type) jvpn be f n nC deg dim x0 xf w b u full g xa,
  jvpn_ok jvpn -> mkm be (MB f) n nC deg dim x0 xf w b = Some u -> argsm (MB f) nC deg dim x0 xf w b ->
  (forall k, Peano.lt k dim -> Rlt (List.nth k x0 R0) (List.nth k xf R0) /\ Peano.le 2 (List.nth k n 0%N) /\ enough f deg (List.nth k n 0%N)) ->
  represents jvpn u dim full g xa ->
  let N := SpecMtfc.product n in let K := mtfc_num u full in
  exists M, mtfc_H ROps RFun jvpn u (m_x u) (List.repeat 0%N dim) full = Some M /\
  forall (jac : (seq (value R_realFieldType Ar K) -> 'cV[R]_N) -> seq (value R_realFieldType Ar K) -> 'M[R]_(N, K))
    (res : seq (value R_realFieldType Ar K) -> 'cV[R]_N) args J z consts s timer,
  differentiates jac -> res_is res args (mx_of N K M) (- nvalues N g (m_x u)) ->
  user_jac J args (mx_of N K M) -> valid_method s ->
  ascending consts -> List.Forall (fun k => Peano.le 1 k /\ Peano.le k (length args)) consts ->
  exists c, vLS jac (Unk z) res args consts J s timer = Some (Unk xa, c) /\
    forall d, List.length d = dim -> exists y, (forall ks, Permutation ks (List.seq 0 dim) -> mixed d ks g y) /\
      forall X, value_at jvpn u dim full d xa X (y X).
Proof.
move=> Ar jvpn be f n nC deg dim x0 xf w b u full g xa Hj Hu Ha Hax Hg N K.
have [M [EM [H1 _]]] := nmatrix_facts full Hj Hu Ha Hax.
exists M; split=> // jac res args J z consts s timer Hjac Hres HJ Hs Hac Hc.
have [E1 [E2 E3]] := H1 g xa Hg.
have [xi [E [_ [_ Hz]]]] := C38_least_squares z timer Hjac Hres HJ Hs Hac Hc.
exists (List.rev consts); split; last exact: E3.
by rewrite -(E2 xi) //; apply: Hz; exists xa.
Qed.
Print Assumptions C90_ls_exact.

(** and every polynomial of total degree at most [deg] is represented by the functions of a Chebyshev
    or Legendre basis, so [LS] recovers it and its partial derivatives; *)
Theorem C90_polynomial : forall (Ar : Type) jvpn be f n nC deg dim x0 xf w b u q,
  jvpn_ok jvpn -> mkm be (MB f) n nC deg dim x0 xf w b = Some u -> argsm (MB f) nC deg dim x0 xf w b -> f <> FS ->
  (forall k, Peano.lt k dim -> Rlt (List.nth k x0 R0) (List.nth k xf R0) /\ Peano.le 2 (List.nth k n 0%N) /\ Peano.le deg.+1 (List.nth k n 0%N)) ->
  total_degree dim deg q ->
  let N := SpecMtfc.product n in let K := mtfc_num u true in
  exists M, mtfc_H ROps RFun jvpn u (m_x u) (List.repeat 0%N dim) true = Some M /\
  forall (jac : (seq (value R_realFieldType Ar K) -> 'cV[R]_N) -> seq (value R_realFieldType Ar K) -> 'M[R]_(N, K))
    (res : seq (value R_realFieldType Ar K) -> 'cV[R]_N) args J z consts s timer,
  differentiates jac -> res_is res args (mx_of N K M) (- nvalues N (mpoly_at dim q) (m_x u)) ->
  user_jac J args (mx_of N K M) -> valid_method s ->
  ascending consts -> List.Forall (fun k => Peano.le 1 k /\ Peano.le k (length args)) consts ->
  exists xi c, vLS jac (Unk z) res args consts J s timer = Some (Unk xi, c) /\
    represents jvpn u dim true (mpoly_at dim q) xi /\
    forall d, List.length d = dim -> exists y, (forall ks, Permutation ks (List.seq 0 dim) -> mixed d ks (mpoly_at dim q) y) /\
      forall X, value_at jvpn u dim true d xi X (y X).
Proof.
move=> Ar jvpn be f n nC deg dim x0 xf w b u q Hj Hu Ha Hf Hax Hq N K.
have Hax' k : Peano.lt k dim -> Rlt (List.nth k x0 R0) (List.nth k xf R0) /\ Peano.le 2 (List.nth k n 0%N) /\ enough f deg (List.nth k n 0%N).
  move=> /Hax [? [? H]]; split=> //; split=> //; rewrite /enough.
  by move: Hf; case: (f) => // _; lia.
have [_ [_ [_ H]]] := nmatrix_facts true Hj Hu Ha Hax'.
have [xa Hxa] := H erefl Hf q Hq.
have [M [EM HM]] := C90_ls_exact Ar Hj Hu Ha Hax' Hxa.
exists M; split=> // jac res args J z consts s timer Hjac Hres HJ Hs Hac Hc.
have [c [E Hd]] := HM jac res args J z consts s timer Hjac Hres HJ Hs Hac Hc.
by exists xa, c.
Qed.
Print Assumptions C90_polynomial.

(** 1 + 2 x y on [0,1] x [0,4] from nine points, and its derivative 2 *)
Example C90_case : exists u M xi c (y : pt -> R),
  mkm Py (MB CP) [:: 3; 3]%N (MList [:: EInt Z0; EInt (Zpos xH)]) 2 2 [:: R0; R0] [:: R1; IZR 4] [::] [::] = Some u /\
  mtfc_H ROps RFun cjvpn u (m_x u) [:: 0; 0]%N true = Some M /\
  let K := mtfc_num u true in let A := mx_of 9 K M in
  let q : mpoly := [:: (R1, [:: 0; 0]%N); (IZR 2, [:: 1; 1]%N)] in
  let res (l : seq (value R_realFieldType unit K)) := if l is Unk x :: _ then A *m x - nvalues 9 (mpoly_at 2 q) (m_x u) else 0 in
  vLS (@diff_jac _ _ 9 K) (Unk 0) res [:: Arg tt] [:: 1%N] None Lstsq true = Some (Unk xi, c) /\
  (forall X, value_at cjvpn u 2 true [:: 0; 0]%N xi X (Rplus R1 (Rmult (IZR 2) (Rmult (X 0%N) (X 1%N))))) /\
  mixed [:: 1; 1]%N [:: 0; 1]%N (mpoly_at 2 q) y /\ forall X, value_at cjvpn u 2 true [:: 1; 1]%N xi X (y X).
Proof.
have [||||u Hu] := @mkm_two Py CP 3 3; try by [left | lia].
pose q : mpoly := [:: (R1, [:: 0; 0]%N); (IZR 2, [:: 1; 1]%N)].
have [||||M [EM H]] := @C90_polynomial unit cjvpn Py CP [:: 3; 3]%N (MList [:: EInt Z0; EInt (Zpos xH)]) 2 2 [:: R0; R0] [:: R1; IZR 4] [::] [::] u q jvpn_ok_case Hu.
- by split=> //; lia.
- by [].
- by apply: two_lt; (split; [rewrite /=; lra|split; rewrite /=; lia]).
- by repeat constructor.
pose K := mtfc_num u true; pose A := mx_of 9 K M.
pose res (l : seq (value R_realFieldType unit K)) := if l is Unk x :: _ then A *m x - nvalues 9 (mpoly_at 2 q) (m_x u) else 0.
have [||||||xi [c [E [Hr Hd]]]] := H (@diff_jac _ _ 9 K) res [:: Arg tt] None 0 [:: 1%N] Lstsq true.
- exact: diff_jac_ok.
- by [].
- by [].
- by [].
- by repeat constructor.
- by constructor; [split; apply/leP|constructor].
have [y [H1 H2]] := Hd [:: 1; 1]%N erefl.
exists u, M, xi, c, y; split; first exact: Hu.
split; first exact: EM.
split; first exact: E.
split.
  move=> X; have := Hr X; congr (value_at _ _ _ _ _ _ _ _).
  by rewrite /= ; ring.
by split=> //; apply: H1.
Qed.
