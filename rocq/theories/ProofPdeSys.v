(** Proofs about scripts for systems of nonlinear partial differential equations (C117). *)
From Coq Require Import ZArith Lia Reals Lra Sorting.Sorted.
From Coquelicot Require Import Coquelicot.
From mathcomp Require Import all_ssreflect all_algebra.
From Verif Require Import Base ModelDict SpecDict ProofDict ModelPe SpecPe ModelSolve ModelSolveDict SpecSolveDict ProofSolveDict
  ModelPinv SpecPinv ModelAffine SpecAffine ModelAffineDict SpecAffineDict ProofAffineDict ModelNllsDict SpecNllsDict ProofNllsDict PropNllsDict
  SpecNewton ProofNewton PropNewton SpecIdle ProofNewton5 PropIdle PropNllsNewton.
From Verif Require Import Numbers ModelBFPy SpecBasis ModelND SpecND ProofND2 ModelELM SpecELM ModelNELM SpecNELM ProofNELM2 ModelUtfc SpecUtfc ModelMtfc SpecMtfc ProofMtfc ProofMtfc3 SpecNColl PropNELM PropNColl ProofColl ProofRecover
  RealStruct SpecRecover PropRecover ModelOde SpecOde ProofOde PropOde PropOdeNl ModelPde SpecPde ProofPde ProofPde2 ProofPde3 PropPde ProofOdeNl2 ModelPdeNl SpecPdeNl ProofPdeNl ProofPdeNl2 PropPdeNl
  ModelOdeSys SpecOdeSys ProofOdeSys PropOdeSys ModelOdeSysNl SpecOdeSysNl ProofOdeSysNl PropOdeSysNl ModelOdeSysG SpecOdeSysG ProofOdeSysG PropOdeSysG
  ModelPdeSys SpecPdeSys.
Set Implicit Arguments.
Unset Strict Implicit.
Unset Printing Implicit Defensive.
Import GRing.Theory Num.Theory.
Local Open Scope ring_scope.

(** ** Newton's method on a dictionary, for residuals that are trees of affine functions *)
Section Trees.
Variables (K : Type) (keq : K -> K -> bool) (cp : seq (K * @arr R)).
Local Notation view := (seq (K * @arr R)).
Hypotheses (Hk : keq_ok keq) (Hn : List.NoDup (List.map fst cp)) (Hok : @entries_ok R_realFieldType K Plain cp).
Local Notation n := (size (packed cp)).
Variables (a : nat -> atree (K:=K)) (m : nat) (res : view -> seq R) (jacfwd : (view -> seq R) -> view -> view) (s : method_).
Hypothesis Hres : forall c, same_form cp c -> res c = List.map (fun i => aval (a i) c) (List.seq 0 m).
Hypothesis Hjac : differentiatesD keq jacfwd cp.
Hypothesis Hs : valid_method s.
Hypothesis Hrg : forall i, (i < m)%N -> areg cp (a i).
Hypothesis Hz0 : forall i, (i < m)%N -> aval (a i) cp = R0.
Hypothesis Hid : forall c, same_form cp c -> (forall i, (i < m)%N -> adir (a i) cp cp c = R0) -> forall i, (i < m)%N -> aagree (a i) cp c.
Local Notation res1 := (fun l : seq (dvalue R K unit) => if l is DUnk c :: _ then res c else [::]).
Local Notation unp := (@unp K cp).
Let W := ok_wf Hok.
Let jvp0 : (R -> R) -> R -> R -> R := fun _ _ _ => R0.

Lemma newton_trees : exists radius c C : R, [/\ Rlt 0 radius, Rlt 0 c, Rlt 0 C &
  forall h (d : @tdict R K) z, List.NoDup (List.map fst (td_items d)) -> contents h d = Some z -> same_form cp z -> near radius cp z ->
  exists cx, [/\ same_form cp cx, forall i, (i < m)%N -> adir (a i) cp cp cx = R0 &
  forall timer printOut tol maxIter fuel, Rlt 0 tol -> Z.le maxIter (Z.of_nat fuel) -> Peano.le 1 fuel ->
  exists c' k out,
    [/\ fst (dNLLS keq Plain (1 : R_realFieldType) Rminus (@l_solve R_realFieldType) (@l_maxabs R_realFieldType) (@v_gt R_realFieldType) jacfwd fuel h d
           res1 [::] [::] None tol maxIter s timer printOut) = NReturns (NResult (DUnk c') (Z.of_nat k) out),
      same_form cp c', near (Rinv (Rmult c (pow 2 (2 ^ k)))) cx c' &
      forall K', Rlt tol 1 -> Rle 2 (Rmult (Rmult tol c) (pow 2 (2 ^ K'))) -> Z.lt (Z.of_nat K'.+1) maxIter ->
        (k <= K'.+1)%N /\ near (Rmult C tol) cx c']]].
Proof.
have F0 := form_self W.
pose r (x : 'cV[R]_n) : 'cV[R]_m := \col_i aval (a i) (unp x).
pose jf (x : 'cV[R]_n) : 'M[R]_(m, n) := @Amx R_realFieldType K m (fun i => agrad (a i) (unp x)) cp.
have Uf x : same_form cp (unp x) by case: (unp_ok Hok x).
have Up x : @pack R_realFieldType K n (unp x) = x by case: (unp_ok Hok x).
have Uag i c : same_form cp c -> aagree (a i) (unp (pack n c)) c.
  by move=> Fc; apply: agree_all => M; apply: (pack_dotv Hok).
have rowE c (i : 'I_m) : same_form cp c -> r (pack n c) i 0 = aval (a i) c.
  by move=> Fc; rewrite mxE (aagree_val _ _ _ (Uag i c Fc)).
have resE c : same_form cp c -> res c = of_col (r (pack n c)).
  move=> Fc; rewrite (Hres Fc).
  apply: (@eq_from_nth _ 0) => [|i]; first by rewrite size_of_col -sizeE List.map_length List.seq_length.
  rewrite -sizeE List.map_length List.seq_length => Hi.
  rewrite -nth_listE (List.nth_indep _ _ (aval (a 0%N) c)); last by rewrite List.map_length List.seq_length; apply/ltP.
  rewrite (List.map_nth (fun i => aval (a i) c)) List.seq_nth; last by apply/ltP.
  by have := congr1 (fun M : 'cV_m => M (Ordinal Hi) 0) (col_of_col (F:=R_realFieldType) (r (pack n c))); rewrite mxE /= => ->; rewrite rowE.
have sizeR c : same_form cp c -> List.length (res c) = m by move=> Fc; rewrite (resE c Fc) sizeE size_of_col.
have HJ c : same_form cp c -> exists D0, jac_of m D0 c (jacfwd res c) /\ jf (pack n c) = \matrix_(i, j) nth (0 : R_realFieldType) (derivatives D0 c i) j.
  move=> Fc; exists (fun i => agrad (a i) c); split.
    apply: (Hjac sizeR Fc) => i k a0 j /ltP Hi Hin Hj.
    have Hnc : List.NoDup (List.map fst c) by rewrite (proj1 Fc).
    apply: (is_derive_ext (fun x : R => aval (a i) (nudge keq k j x c))).
      move=> x; have Fx := nudge_form keq cp k j x c Fc.
      rewrite nth_listE (resE _ Fx).
      have := congr1 (fun M : 'cV_m => M (Ordinal Hi) 0) (col_of_col (F:=R_realFieldType) (r (pack n (nudge keq k j x c)))); rewrite mxE /= => ->.
      by rewrite mxE (aagree_val _ _ _ (Uag i _ Fx)).
    exact: (proj1 (agrad_derive keq Hk (a i) c k a0 j (areg_diff jvp0 cp _ (Hrg Hi)) Hnc Hin Hj)).
  apply/matrixP => i j; rewrite [RHS]mxE AmxE derivativesE -(jrow_form _ _ Fc W) -!derivativesE !derivatives_map.
  by congr (nth _ _ _); apply: eq_map => w; apply: aagree_grad; exact: Uag.
have Hdir c c1 c2 (i : 'I_m) : same_form cp c -> same_form cp c1 -> same_form cp c2 ->
    (jf (pack n c) *m (pack n c2 - pack n c1)) i 0 = adir (a i) c c1 c2.
  move=> Fc F1 F2; rewrite (dotv_diff_row Hok) // agrad_dir.
  by apply: aagree_at; exact: Uag.
have [rho [L [Hrho [HL0 HT0]]]] := all_nice cp F0 (lip Hok) a m (fun i Hi => Hrg (introT ltP Hi)).
have HT : @SpecNewton.taylor R_realFieldType m n r jf (pack n cp) rho L.
  move=> x y d Hx Hy Hd i.
  have Nx : near rho cp (unp x) by apply: (within_near Hok) => //; [lra|rewrite Up].
  have Ny : near rho cp (unp y) by apply: (within_near Hok) => //; [lra|rewrite Up].
  have Nd : near (Rabs d) (unp x) (unp y).
    apply: (within_near Hok) => //; first exact: Rabs_pos.
    move=> j; rewrite !Up; apply: Order.POrderTheory.le_trans (Hd j) _; apply/RlebP; exact: Rle_abs.
  have := HT0 i (unp x) (unp y) (Rabs d) (elimT ltP (ltn_ord i)) (Uf x) (Uf y) Nx Ny (Rabs_pos _) Nd.
  have := Hdir (unp x) (unp x) (unp y) i (Uf x) (Uf x) (Uf y); rewrite !Up => <-.
  have -> : Rmult (Rabs d) (Rabs d) = Rmult d d by rewrite -Rabs_mult Rabs_pos_eq //; exact: Rle_0_sqr.
  move=> H; apply/RlebP; move: H; rewrite [X in `|X|]mxE [X in `|X + _|]mxE [X in `|_ + X|]mxE [X in `|_ + X - _|]mxE [X in `|X + _ - _|]mxE [X in `|_ - X - _|]mxE expr2.
  by [].
have Hr0 : r (pack n cp) = 0.
  by apply/matrixP => i j; rewrite ord1 [RHS]mxE rowE // Hz0.
have Hker c : same_form cp c -> jf (pack n cp) *m (pack n c - pack n cp) = 0 -> forall i, (i < m)%N -> adir (a i) cp cp c = R0.
  move=> Fc Hh i Hi; have := congr1 (fun M : 'cV[R]_m => M (Ordinal Hi) 0) Hh.
  by rewrite (Hdir cp cp c (Ordinal Hi) F0 F0 Fc) [RHS]mxE.
have Hidle (k : 'cV[R]_n) : jf (pack n cp) *m k = 0 -> @idle R_realFieldType m n r jf k.
  move=> Hk0; pose c := unp (pack n cp + k).
  have Fc : same_form cp c by exact: Uf.
  have Ec : pack n c = pack n cp + k by exact: Up.
  have Hd0 : pack n c - pack n cp = k by rewrite Ec addrC addKr.
  have Ag (i : 'I_m) : aagree (a i) cp c.
    by apply: (Hid Fc) => //; apply: (Hker c Fc); rewrite Hd0.
  move=> x.
  have Agx (i : 'I_m) : aagree (a i) (unp x) (unp (x + k)).
    apply: (aagree_move jvp0 _ _ _ cp c) => // M; rewrite (dotv_diff Hok M (Uf x) (Uf (x + k))) (dotv_diff Hok M F0 Fc) !Up.
    by rewrite !opprD !addrA !subrr.
  split.
  - by apply/matrixP => i j; rewrite !mxE (aagree_val _ _ _ (Agx i)).
  - apply/matrixP => i j; rewrite !AmxE -!derivativesE !derivatives_map.
    by congr (nth _ _ _); apply: eq_map => w; rewrite (aagree_grad _ _ _ _ _ (Agx i)).
  - apply/matrixP => i j; rewrite ord1 [RHS]mxE.
    have := Hdir (unp x) (unp x) (unp (x + k)) i (Uf x) (Uf x) (Uf (x + k)); rewrite !Up (aagree_dir _ _ _ _ (Agx i)).
    by rewrite addrAC subrr add0r.
have Hall c : same_form cp c -> res1 (DUnk c :: @dargs R_realFieldType K unit [::]) = of_col (r (pack n c)) /\
     exists D0, jac_of m D0 c (jacfwd (fun v => res1 (DUnk v :: @dargs R_realFieldType K unit [::])) c) /\ jf (pack n c) = \matrix_(i, j) nth (0 : R_realFieldType) (derivatives D0 c i) j.
  by move=> Fc; split; [exact: resE|exact: HJ].
have HL' : 0 <= (L : R_realFieldType) by apply/RlebP.
have Hrho' : 0 < (rho : R_realFieldType) by apply/RltbP.
have [radius [c [C [Hrad Hcp HC Hgo]]]] := @C109_newton R_realFieldType K unit keq Plain jacfwd m n cp [::] res1 r jf [::] s rho L
  Hk Hok erefl Hall Hs (Sorting.Sorted.SSorted_nil _) (List.Forall_nil _) HT Hr0 HL' Hrho' Hidle.
have Hc' : Rlt 0 c by move/RltbP: Hcp.
have HC' : Rlt 0 C by move/RltbP: HC.
exists radius, c, C; split=> //; first by move/RltbP: Hrad.
move=> h dd z Hnd Hcz Fz Hz.
have Hz' : @within R_realFieldType n (pack n z - pack n cp) radius by exact: near_within.
have [xs' [_ Ek' _ Hgo']] := Hgo h dd z Hnd Hcz Fz Hz'.
rewrite -(Up xs') in Ek' Hgo'; set cx := unp xs' in Ek' Hgo'.
have Fx : same_form cp cx by exact: Uf.
exists cx; split=> //; first exact: Hker.
move=> timer printOut tol maxIter fuel Htol HM Hfl.
have Htol' : 0 < (tol : R_realFieldType) by apply/RltbP.
have [c' [k [out [E1 F1 E3 E4]]]] := Hgo' timer printOut tol maxIter fuel Htol' HM Hfl.
have Hpw : Rlt 0 (pow 2 (2 ^ k)) by apply: pow_lt; lra.
exists c', k, out; split=> //.
- apply: (within_near Hok) => //; first by left; apply: Rinv_0_lt_compat; exact: Rmult_lt_0_compat.
  by move: E3; rewrite RinvE RpowE //; exact: Rmult_lt_0_compat.
move=> K' Ht1 H2 HM'.
have Ht1' : (tol : R_realFieldType) < 1 by apply/RltbP.
have H2' : 2%:R <= (tol : R_realFieldType) * c * 2%:R ^+ (2 ^ K') by apply/RlebP; rewrite RpowE R2E.
have [Hk' Hw] := E4 K' Ht1' H2' HM'; split=> //.
by apply: (within_near Hok) => //; apply: Rmult_le_pos; lra.
Qed.
End Trees.
