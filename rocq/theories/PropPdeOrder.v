(** C120: the order in which a constrained expression treats the variables. *)
From Coq Require Import ZArith Lia Reals Lra Permutation.
From Coquelicot Require Import Coquelicot.
From mathcomp Require Import all_ssreflect all_algebra.
From Verif Require Import Base Numbers ModelBFPy SpecBasis ModelND SpecND ModelELM SpecELM ModelNELM SpecNELM ModelUtfc SpecUtfc ModelMtfc SpecMtfc ProofMtfc
  ModelOde SpecOde ModelPde SpecPde ProofPde ProofPde2 ProofPde3 ProofPde4 PropNELM PropNColl PropPde SpecPdeOrder ProofPdeOrder.
Set Implicit Arguments.
Unset Strict Implicit.
Unset Printing Implicit Defensive.

Lemma setting_free jvpn be f ns nC deg dim x0 xf w b u css phis xi g :
  pde_setting jvpn be f ns nC deg dim x0 xf w b u css phis -> (forall X, free jvpn u dim xi X = Some (g X)) -> separable dim g.
Proof.
move=> [Hj [Hdim [Hx [Hu [HnC [Hcs Hph]]]]]] Hg.
apply: (sep_ext dim _ _ _ (@free_sep f nC deg dim x0 xf Hdim xi)) => X.
have := @o_free jvpn Hj be f ns nC deg dim x0 xf w b u css Hu Hdim HnC xi X; rewrite Hg; by case.
Qed.
Lemma setting_len jvpn be f ns nC deg dim x0 xf w b u css phis :
  pde_setting jvpn be f ns nC deg dim x0 xf w b u css phis -> length css = length phis.
Proof. by move=> [_ [_ [_ [_ [_ [_ Hph]]]]]]; elim: Hph => //= cs phi c p _ _ ->. Qed.

(** The variables can be treated in any order: the expression is the same. *)
Theorem C120_any_order : forall jvpn be f ns nC deg dim x0 xf w b u css phis ts,
  pde_setting jvpn be f ns nC deg dim x0 xf w b u css phis -> Permutation ts (parts dim css phis) ->
  forall xi z, surface_in jvpn u dim ts xi z <-> surface jvpn u dim css phis xi z.
Proof.
move=> jvpn be f ns nC deg dim x0 xf w b u css phis ts Hset P xi z.
have Hl := setting_len Hset.
have [_ [_ [_ [_ [_ [Hcs _]]]]]] := Hset.
by split=> -[g [Hg Hz]]; exists g; split=> // X; rewrite Hz; [|symmetry];
  exact: (any_order dim css phis ts g Hcs Hl P (setting_free Hset Hg) X).
Qed.
Print Assumptions C120_any_order.

(** Treating a variable once more changes nothing. *)
Theorem C120_again : forall jvpn be f ns nC deg dim x0 xf w b u css phis t,
  pde_setting jvpn be f ns nC deg dim x0 xf w b u css phis -> List.In t (parts dim css phis) ->
  forall xi z, surface jvpn u dim css phis xi z -> forall X, treat t z X = z X.
Proof.
move=> jvpn be f ns nC deg dim x0 xf w b u css phis t Hset Ht xi z Hz X.
have [Hj [Hdim [Hx [Hu [HnC [Hcs Hph]]]]]] := Hset.
have E := @surface_Z jvpn Hj be f ns nC deg dim x0 xf w b u css phis Hu Hdim HnC _ _ Hz.
move: Ht; rewrite /parts -{1}(proj1 Hcs) => Ht.
have [i [E1 E2]] := in_parts phis css 0 t Ht.
rewrite /treat /stage corr_met ?Rplus_0_r // => c Hc Y.
rewrite /imposed (Derive_n_ext _ (fun s => Z f nC deg dim x0 xf css phis xi (upd Y (fst t) s))); last by move=> s; rewrite E.
apply: (@Z_meets f nC deg dim x0 xf css phis Hdim Hcs Hph); exists (snd (snd t)); split=> //.
by rewrite E1.
Qed.
Print Assumptions C120_again.

(** Conditions that do not fit together: z(0, y) = 0 and z(x, 0) = 1 *)
Definition clash_css : seq (seq pcond) := [:: [:: PCond 0 R0 (fun _ => R0)]; [:: PCond 0 R0 (fun _ => R1)]].
Definition clash_phis : seq (seq (seq R)) := [:: [:: [:: R1]]; [:: [:: R1]]].
(** the values of the two orders where the conditions meet *)
Lemma clash_val g a : let O : pt := fun _ => R0 in g O = a -> g (upd O 0 R0) = a -> g (upd O 1 R0) = a ->
  g (upd (upd O 0 R0) 1 R0) = a -> g (upd (upd O 1 R0) 0 R0) = a ->
  stages 0 clash_phis clash_css g O <> stages_in (List.rev (parts 2 clash_css clash_phis)) g O.
Proof.
move=> O E E0 E1 E01 E10.
have P t : poly_at [:: R1] t = R1 by rewrite /poly_at /=; ring.
have S1 : stages 0 clash_phis clash_css g O = R1.
  cbn [stages clash_phis clash_css]; rewrite /stage; cbn [corr pc_val]; rewrite !P /imposed; cbn [Derive_n pc_ord pc_pt pc_val]; rewrite ?P ?E ?E0 ?E1 ?E01 ?E10; lra.
have S2 : stages_in (List.rev (parts 2 clash_css clash_phis)) g O = R0.
  change (stage 0 [:: [:: R1]] [:: PCond 0 R0 (fun _ => R0)] (stage 1 [:: [:: R1]] [:: PCond 0 R0 (fun _ => R1)] g) O = R0).
  rewrite /stage; cbn [corr pc_val]; rewrite !P /imposed; cbn [Derive_n pc_ord pc_pt pc_val]; rewrite ?P ?E ?E0 ?E1 ?E01 ?E10; lra.
rewrite S1 S2; exact: R1_neq_R0.
Qed.
(** then the order decides which of them holds where they meet *)
Theorem C120_clash_refuted : exists u, mkm Py (MB CP) [:: 3; 3]%N (MList [:: EInt (Zpos xH); EInt (Zpos xH)]) 2 2 [:: R0; R0] [:: R1; R1] [::] [::] = Some u /\
  switchings clash_css clash_phis /\
  forall xi, exists z z', surface cjvpn u 2 clash_css clash_phis xi z /\ surface_in cjvpn u 2 (List.rev (parts 2 clash_css clash_phis)) xi z' /\
  z (fun _ => R0) <> z' (fun _ => R0).
Proof.
have [u [Hu Hset]] := ex_setting; exists u; split; first exact: Hu.
split.
  have Hs (v : pt -> R) : switching (one_variable [:: PCond 0 R0 v]) [:: [:: R1]].
    split=> //; split; first by move=> p [<-|[]].
    by case=> [|i] [|j] c p //=; [case=> <- [<-] /=; lra|case: j|case: i|case: i].
  by apply: List.Forall2_cons; [exact: Hs|apply: List.Forall2_cons; [exact: Hs|exact: List.Forall2_nil]].
move=> xi; have [Ha _] := C95_conditions Hset.
have [_ [[g [Hg _]] _]] := Ha xi.
exists (stages 0 clash_phis clash_css g), (stages_in (List.rev (parts 2 clash_css clash_phis)) g).
split; first by exists g.
split; first by exists g.
have [a Hloc] : exists a, forall Y, (forall i, Y i = R0) -> g Y = a.
  by exists (g (fun _ => R0)) => Y HY; apply: (sep_local 2 g (setting_free Hset Hg)) => k _; rewrite HY.
have U Y k : (forall i, Y i = R0) -> forall i, upd Y k R0 i = R0 by move=> HY i; rewrite /upd; case: (Nat.eqb i k).
pose O : pt := fun _ => R0.
have HO i : O i = R0 by [].
have H0 := Hloc _ (U _ 0%N HO); have H1 := Hloc _ (U _ 1%N HO); have H01 := Hloc _ (U _ 1%N (U _ 0%N HO)); have H10 := Hloc _ (U _ 0%N (U _ 1%N HO)).
have HOa := Hloc _ HO.
exact: (@clash_val g a HOa H0 H1 H01 H10).
Qed.
Print Assumptions C120_clash_refuted.

(** the script of C95's example with its two variables exchanged *)
Example C120_case : exists u, mkm Py (MB CP) [:: 3; 3]%N (MList [:: EInt (Zpos xH); EInt (Zpos xH)]) 2 2 [:: R0; R0] [:: R1; R1] [::] [::] = Some u /\
  forall xi z, surface_in cjvpn u 2 (List.rev (parts 2 ex_css ex_phis)) xi z <-> surface cjvpn u 2 ex_css ex_phis xi z.
Proof.
have [u [Hu Hset]] := ex_setting; exists u; split; first exact: Hu.
apply: (C120_any_order Hset); exact: Permutation_sym (Permutation_rev _).
Qed.
