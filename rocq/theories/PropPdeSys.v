(** C117: systems of nonlinear partial differential equations, solved with constrained expressions in
    several variables, a TFCDict and NLLS. *)
From Coq Require Import ZArith Lia Reals Lra Sorting.Sorted.
From Coquelicot Require Import Coquelicot.
From mathcomp Require Import all_ssreflect all_algebra.
From Verif Require Import Base ModelDict SpecDict ProofDict ModelPe SpecPe ModelSolve ModelSolveDict SpecSolveDict ProofSolveDict
  ModelPinv SpecPinv ModelAffine SpecAffine ModelAffineDict SpecAffineDict ProofAffineDict ModelNllsDict SpecNllsDict ProofNllsDict PropNllsDict
  SpecNewton ProofNewton PropNewton SpecIdle ProofNewton5 PropIdle PropNllsNewton.
From Verif Require Import Numbers ModelBFPy SpecBasis ModelND SpecND ProofND2 ModelELM SpecELM ModelNELM SpecNELM ProofNELM2 ModelUtfc SpecUtfc ModelMtfc SpecMtfc ProofMtfc ProofMtfc3 SpecNColl PropNELM PropNColl ProofColl ProofRecover
  RealStruct SpecRecover PropRecover ModelOde SpecOde ProofOde PropOde PropOdeNl ModelPde SpecPde ProofPde ProofPde2 ProofPde3 PropPde ProofOdeNl2 ModelPdeNl SpecPdeNl ProofPdeNl ProofPdeNl2 PropPdeNl
  ModelOdeSys SpecOdeSys ProofOdeSys PropOdeSys ModelOdeSysNl SpecOdeSysNl ProofOdeSysNl PropOdeSysNl ModelOdeSysG SpecOdeSysG ProofOdeSysG PropOdeSysG
  ModelPdeSys SpecPdeSys ProofPdeSys.
Set Implicit Arguments.
Unset Strict Implicit.
Unset Printing Implicit Defensive.
Import GRing.Theory Num.Theory.
Local Open Scope ring_scope.

(** the setting of C95 for a function of the script *)
Definition qsetting (K : Type) jvpn dim (f : qfun (K:=K)) : Prop :=
  pde_setting jvpn (q_be f) (q_fam f) (q_ns f) (q_nC f) (q_deg f) dim (q_x0 f) (q_xf f) (q_w f) (q_b f) (q_u f) (q_css f) (q_phis f).

(** the arrays are the values at the points *)
Lemma sumQ_ok z Xs ts : sumQ z Xs ts = List.map (psum_at ts z) Xs.
Proof. by elim: ts => //= t ts ->; elim: Xs => //= X Xs ->. Qed.
Lemma arrayQ_ok z Xs e : arrayQ z Xs e = List.map (qexp_at e z) Xs.
Proof.
elim: e => [ts|g|a IHa b IHb|a IHa b IHb|f a IHa] //=; rewrite ?IHa ?IHb.
- exact: sumQ_ok.
- by elim: Xs {IHa IHb} => //= X Xs ->.
- by elim: Xs {IHa IHb} => //= X Xs ->.
- by rewrite List.map_map.
Qed.
Definition jobsQ (eqs : seq qeqn) : seq (qeqn * pt) := List.flat_map (fun e => List.map (pair e) (q_pts e)) eqs.
Definition jobQ0 : qeqn * pt := (QEqn [::] (QCoef (fun _ => R0)), fun _ => R0).
Lemma in_jobsQ eqs e X : List.In (e, X) (jobsQ eqs) <-> List.In e eqs /\ List.In X (q_pts e).
Proof.
rewrite /jobsQ List.in_flat_map; split.
  by move=> [e' [H /List.in_map_iff [X' [[<- <-] H']]]].
by move=> [H H']; exists e; split=> //; apply: List.in_map.
Qed.
Lemma concat_jobs eqs z : List.concat (List.map (fun e => arrayQ z (q_pts e) (q_lhs e)) eqs) = List.map (fun q => qexp_at (q_lhs q.1) z q.2) (jobsQ eqs).
Proof.
elim: eqs => //= e l ->; rewrite arrayQ_ok /jobsQ /= List.map_app List.map_map; exact: erefl.
Qed.
(** expressions depend only on the functions of the script *)
Lemma psum_same k dim ts z z' X : fit_qexp k dim (QLin ts) -> (forall i, Peano.lt i k -> forall Y, z i Y = z' i Y) -> psum_at ts z X = psum_at ts z' X.
Proof.
move=> Hf Hz; elim: ts Hf => //= t ts IH Hf; rewrite IH; last by move=> t' Ht'; apply: Hf; right.
by rewrite (pde_ext (snd t) (z (fst t)) (z' (fst t)) X) // => Y; apply: Hz; case: (Hf t (or_introl erefl)).
Qed.
Lemma qexp_same k dim e z z' X : fit_qexp k dim e -> (forall i, Peano.lt i k -> forall Y, z i Y = z' i Y) -> qexp_at e z X = qexp_at e z' X.
Proof.
move=> Hf Hz; elim: e Hf => [ts|g|a IHa b IHb|a IHa b IHb|f a IHa] //.
- by move=> Hf; exact: (psum_same X Hf Hz).
- by case=> H1 H2 /=; rewrite IHa // IHb.
- by case=> H1 H2 /=; rewrite IHa // IHb.
- by move=> H /=; rewrite IHa.
Qed.
Lemma dqexp_same k dim e z z' v v' X : fit_qexp k dim e -> (forall i, Peano.lt i k -> forall Y, z i Y = z' i Y) -> (forall i, Peano.lt i k -> forall Y, v i Y = v' i Y) ->
  dqexp_at e z v X = dqexp_at e z' v' X.
Proof.
move=> Hf Hz Hv; elim: e Hf => [ts|g|a IHa b IHb|a IHa b IHb|f a IHa] //.
- by move=> Hf; exact: (psum_same X Hf Hv).
- by case=> H1 H2 /=; rewrite IHa // IHb.
- by case=> H1 H2 /=; rewrite IHa // IHb // (qexp_same X H1 Hz) (qexp_same X H2 Hz).
- by move=> H /=; rewrite IHa // (@qexp_same k dim a z z' X H Hz).
Qed.
Lemma qregular_same k dim e z z' X : fit_qexp k dim e -> (forall i, Peano.lt i k -> forall Y, z i Y = z' i Y) -> qregular e z X -> qregular e z' X.
Proof.
move=> Hf Hz; elim: e Hf => [ts|g|a IHa b IHb|a IHa b IHb|f a IHa] //.
- by case=> H1 H2 [R1 R2]; split; [exact: IHa|exact: IHb].
- by case=> H1 H2 [R1 R2]; split; [exact: IHa|exact: IHb].
- by move=> H [R1 [R2 R3]]; split; [exact: IHa|split=> //; rewrite -(@qexp_same k dim a z z' X H Hz)].
Qed.
(** entries of close dictionaries are close *)
Lemma near_get (K : Type) (keq : K -> K -> bool) (c1 c2 : seq (K * @arr R)) d k j a : same_form c1 c2 -> List.Forall (fun q => wf (snd q)) c1 -> near d c1 c2 ->
  v_get keq c1 k = Some a -> Peano.lt j (List.length (a_data a)) -> Rle (Rabs (Rminus (get keq c2 k j) (get keq c1 k j))) d.
Proof.
elim: c1 c2 => [|[k1 a1] c1 IH] [|[k2 a2] c2] [K1 [K2 K3]] W1 Hd Ha Hj; try discriminate.
move: K1 K2 => [E1 K1] [E2 K2]; inversion K3 as [|? ? W2 K3']; subst; inversion W1 as [|? ? Wa W1']; subst.
have L : List.length (a_data a1) = List.length (a_data a2).
  by move: Wa W2; rewrite /wf /= => -> ->; rewrite E2.
rewrite /get /v_get /=; rewrite /v_get /= in Ha; case Ek: (keq k1 k) Ha => /= Ha.
  case: Ha => Ea; rewrite Ea /=; rewrite -Ea in Hj *.
  by have := Hd j; rewrite /packed /= !List.app_nth1 // -?L.
apply: (IH c2) => //.
move=> i; have := Hd (addn (List.length (a_data a1)) i); rewrite /packed /= !List.app_nth2 -?L; try (rewrite -plusE; lia).
by rewrite -plusE Nat.add_comm Nat.add_sub.
Qed.

Section Main.
Variables (jvpn : (seq R -> R) -> seq R -> seq R -> R) (K : Type) (keq : K -> K -> bool) (dim : nat) (fs : seq (qfun (K:=K))) (eqs : seq qeqn).
Variables (cp : seq (K * @arr R)).
Local Notation view := (seq (K * @arr R)).
Hypotheses (Hk : keq_ok keq) (Hn : List.NoDup (List.map fst cp)) (W : List.Forall (fun q => wf (snd q)) cp).
Hypothesis Hset : forall f, List.In f fs -> qsetting jvpn dim f.
Hypothesis Hfit : forall e, List.In e eqs -> fit_qexp (List.length fs) dim (q_lhs e).
Hypothesis Hkey : forall f, List.In f fs -> exists a, v_get keq cp (q_key f) = Some a /\ a_shape a = [:: mtfc_num (q_u f) false].
Definition Zq (f : qfun (K:=K)) := Z (q_fam f) (q_nC f) (q_deg f) dim (q_x0 f) (q_xf f) (q_css f) (q_phis f).
Definition Yq (c : view) (i : nat) (X : pt) : R := if List.nth_error fs i is Some f then Zq f (get keq c (q_key f)) X else R0.

Lemma Zq_surface f xi : List.In f fs -> surface jvpn (q_u f) dim (q_css f) (q_phis f) xi (Zq f xi).
Proof. by move=> /Hset [Hj [Hdim [_ [Hu [HnC _]]]]]; exact: (Z_surface jvpn Hj _ _ _ _ _ dim _ _ _ _ _ _ _ Hu Hdim HnC). Qed.
Lemma surface_Zq f xi z : List.In f fs -> surface jvpn (q_u f) dim (q_css f) (q_phis f) xi z -> forall X, z X = Zq f xi X.
Proof. by move=> /Hset [Hj [Hdim [_ [Hu [HnC _]]]]] Hz; exact: (surface_Z jvpn Hj _ _ _ _ _ dim _ _ _ _ _ _ _ Hu Hdim HnC _ _ Hz). Qed.
Lemma Zq_sep f xi : List.In f fs -> separable dim (Zq f xi).
Proof. by move=> /Hset [_ [Hdim [_ [_ [_ [Hcs _]]]]]]; exact: (@Z_sep _ _ _ dim _ _ _ _ Hdim Hcs). Qed.
Lemma Zq_meets f xi : List.In f fs -> meets_all (q_css f) (Zq f xi).
Proof. by move=> /Hset [_ [Hdim [_ [_ [_ [Hcs Hph]]]]]] l cc Hl; exact: (@Z_meets _ _ _ dim _ _ _ _ Hdim Hcs Hph _ _ _ Hl). Qed.
Lemma fs_nth i : Peano.lt i (List.length fs) -> exists f, List.nth_error fs i = Some f.
Proof. by move=> Hi; case E: (List.nth_error fs i) => [f|]; [exists f|move/List.nth_error_None: E; lia]. Qed.

Lemma surf_ex c : same_form cp c -> surfacesQ jvpn keq dim c fs (Yq c).
Proof.
move=> Fc i f Ef; have Hf := List.nth_error_In _ _ Ef; have [a [Ea Es]] := Hkey Hf.
have [a' [Ea' [Es' _]]] := form_get keq cp c (q_key f) a Fc Ea.
exists a'; split=> //; split; first by rewrite Es'.
rewrite /Yq Ef; have -> : get keq c (q_key f) = fun j => List.nth j (a_data a') R0 by rewrite /get Ea'.
exact: Zq_surface.
Qed.
Lemma surf_is c z : surfacesQ jvpn keq dim c fs z -> forall i f, List.nth_error fs i = Some f -> forall X, z i X = Yq c i X.
Proof.
move=> Hz i f Ef X; have [a [Ea [_ Hs]]] := Hz i f Ef.
rewrite /Yq Ef (surface_Zq (List.nth_error_In _ _ Ef) Hs); by rewrite /get Ea.
Qed.
Lemma surf_lt c z : surfacesQ jvpn keq dim c fs z -> forall i, Peano.lt i (List.length fs) -> forall X, z i X = Yq c i X.
Proof. by move=> Hz i /fs_nth [f Ef]; exact: (surf_is Hz Ef). Qed.
Lemma residualQ_is c r : residualQ jvpn keq dim c fs eqs r -> r = List.map (fun q => qexp_at (q_lhs q.1) (Yq c) q.2) (jobsQ eqs).
Proof.
move=> [z [Hz ->]]; rewrite concat_jobs; apply: List.map_ext_in => -[e X] /in_jobsQ [He _] /=.
exact: (qexp_same X (Hfit He) (surf_lt Hz)).
Qed.
Lemma residualQ_ex c : same_form cp c -> residualQ jvpn keq dim c fs eqs (List.map (fun q => qexp_at (q_lhs q.1) (Yq c) q.2) (jobsQ eqs)).
Proof. by move=> Fc; exists (Yq c); split; [exact: surf_ex|rewrite concat_jobs]. Qed.

(** linear expressions are affine in the dictionary *)
Lemma pde_aff f co X : List.In f fs -> orders_fit dim co -> exists M b, forall c, same_form cp c -> pde co (Zq f (get keq c (q_key f))) X = Rplus (dotv M c) b.
Proof.
move=> Hf Hco; have [Hj [Hdim [_ [Hu [HnC [Hcs _]]]]]] := Hset Hf; have [a [Ea Es]] := Hkey Hf.
pose row := List.map (fun v => pde co (stages 0 (q_phis f) (List.map (List.map zero_val) (q_css f)) (G (q_fam f) dim (q_x0 f) (q_xf f) v)) X) (mK (MB (q_fam f)) dim (q_deg f) (q_nC f) false).
have Hl : List.length row = mtfc_num (q_u f) false.
  by rewrite /row List.map_length (o_num jvpn Hj _ _ _ _ _ dim _ _ _ _ _ _ Hu Hdim HnC false).
have [M [b H]] := @vaff_row K keq Hk cp Hn (q_key f) a _ row Ea Es Hl.
exists M, (Rplus b (pde co (stages 0 (q_phis f) (q_css f) (fun _ => R0)) X)) => c Fc.
rewrite /Zq (Z_pde (q_fam f) (q_nC f) (q_deg f) dim (q_x0 f) (q_xf f) (q_css f) (q_phis f) Hdim Hcs _ _ _ Hco) -/row (H c Fc) Rplus_comm Rplus_assoc; exact: erefl.
Qed.
Lemma psum_aff ts X : fit_qexp (List.length fs) dim (QLin ts) -> exists M b, forall c, same_form cp c -> psum_at ts (Yq c) X = Rplus (dotv M c) b.
Proof.
elim: ts => [|t ts IH] Hf.
  by exists (fun _ _ => R0), R0 => c _; rewrite dotv_zero //=; lra.
have [|M [b H]] := IH; first by move=> t' Ht'; apply: Hf; right.
have [/fs_nth [f Ef] Hco] := Hf t (or_introl erefl).
have [M' [b' H']] := pde_aff X (List.nth_error_In _ _ Ef) Hco.
exists (fun k j => Rplus (M' k j) (M k j)), (Rplus b' b) => c Fc.
rewrite dotv_add; cbn [psum_at]; rewrite (H c Fc).
rewrite (pde_ext (snd t) (Yq c (fst t)) (Zq f (get keq c (q_key f))) X); last by move=> Y; rewrite /Yq Ef.
by rewrite (H' c Fc); lra.
Qed.
Lemma psum_minus ts c1 c2 X : fit_qexp (List.length fs) dim (QLin ts) ->
  psum_at ts (fun i S => Rminus (Yq c2 i S) (Yq c1 i S)) X = Rminus (psum_at ts (Yq c2) X) (psum_at ts (Yq c1) X).
Proof.
elim: ts => [|t ts IH] Hf; first by rewrite /=; lra.
have Hf' : fit_qexp (List.length fs) dim (QLin ts) by move=> t' Ht'; apply: Hf; right.
cbn [psum_at]; rewrite (IH Hf').
have [/fs_nth [f Ef] Hco] := Hf t (or_introl erefl); have Hi := List.nth_error_In _ _ Ef.
have Hs c : separable dim (Yq c (fst t)) by rewrite /Yq Ef; exact: Zq_sep.
rewrite (pde_minus (Hset Hi) X Hco (Hs c2) (Hs c1)); lra.
Qed.
Lemma qtree_ok e X : fit_qexp (List.length fs) dim e -> exists a, forall c, same_form cp c ->
  [/\ aval a c = qexp_at e (Yq c) X,
      forall c1 c2, same_form cp c1 -> same_form cp c2 -> adir a c c1 c2 = dqexp_at e (Yq c) (fun i S => Rminus (Yq c2 i S) (Yq c1 i S)) X,
      forall c1 c2, same_form cp c1 -> same_form cp c2 -> (forall i, Peano.lt i (List.length fs) -> forall S, Yq c1 i S = Yq c2 i S) -> aagree a c1 c2 &
      c = cp -> qregular e (Yq cp) X -> areg cp a].
Proof.
elim: e => [ts|g|a IHa b IHb|a IHa b IHb|f a IHa] Hf.
- have [M [b H]] := psum_aff X Hf; exists (ALin M b) => c Fc; split=> //.
  + by rewrite /= (H c Fc).
  + by move=> c1 c2 F1 F2; cbn [adir dqexp_at]; rewrite psum_minus // (H c1 F1) (H c2 F2); lra.
  + move=> c1 c2 F1 F2 HY; cbn [aagree]; have := psum_same X Hf HY.
    by rewrite (H c1 F1) (H c2 F2); lra.
- exists (ALin (fun _ _ => R0) (g X)) => c Fc; split=> //=.
  + by rewrite dotv_zero //; lra.
  + by move=> *; rewrite !dotv_zero //; lra.
  + by move=> *; rewrite !dotv_zero.
- case: Hf => Fa Fb; have [ta Ha] := IHa Fa; have [tb Hb] := IHb Fb; exists (AAdd ta tb) => c Fc /=.
  have [A1 A2 A3 A4] := Ha c Fc; have [B1 B2 B3 B4] := Hb c Fc; split.
  + by rewrite A1 B1.
  + by move=> c1 c2 F1 F2; rewrite A2 // B2.
  + by move=> c1 c2 F1 F2 HY; split; [exact: A3|exact: B3].
  + by move=> Ec [R1 R2]; split; [exact: A4|exact: B4].
- case: Hf => Fa Fb; have [ta Ha] := IHa Fa; have [tb Hb] := IHb Fb; exists (AMul ta tb) => c Fc /=.
  have [A1 A2 A3 A4] := Ha c Fc; have [B1 B2 B3 B4] := Hb c Fc; split.
  + by rewrite A1 B1.
  + by move=> c1 c2 F1 F2; rewrite A2 // B2 // A1 B1.
  + by move=> c1 c2 F1 F2 HY; split; [exact: A3|exact: B3].
  + by move=> Ec [R1 R2]; split; [exact: A4|exact: B4].
- have [ta Ha] := IHa Hf; exists (AApp f ta) => c Fc /=; have [A1 A2 A3 A4] := Ha c Fc; split.
  + by rewrite A1.
  + by move=> c1 c2 F1 F2; rewrite A2 // A1.
  + by move=> c1 c2 F1 F2 HY; exact: A3.
  + by move=> Ec [R1 [R2 R3]]; split; [exact: A4|split=> //; rewrite -Ec A1 Ec].
Qed.
(** close coefficients give close functions *)
Lemma Zq_bound f d : List.In f fs -> Peano.le (List.length d) dim -> exists B : R, Rle 0 B /\ forall c1 c2 e, same_form cp c1 -> same_form cp c2 -> near e c1 c2 ->
  close_on dim (q_x0 f) (q_xf f) d (Zq f (get keq c2 (q_key f))) (Zq f (get keq c1 (q_key f))) (Rmult B e).
Proof.
move=> Hf Hd; have [Hj [Hdim [Hx [Hu [HnC [Hcs _]]]]]] := Hset Hf; have [a0 [Ea Es]] := Hkey Hf.
pose one : seq ((pt -> R) * seq nat) := [:: (fun _ => R1, d)].
have Hone : orders_fit dim one by move=> g d' [[_ <-]|[]].
pose Wf v := stages 0 (q_phis f) (List.map (List.map zero_val) (q_css f)) (G (q_fam f) dim (q_x0 f) (q_xf f) v).
pose Ws := List.map (fun v => pdiff 0 d (Wf v)) (mK (MB (q_fam f)) dim (q_deg f) (q_nC f) false).
have [B [HB Hb]] : exists B : R, Rle 0 B /\ forall a a' e, (forall i, Peano.lt i (List.length Ws) -> Rle (Rabs (Rminus (a i) (a' i))) e) ->
    forall X, in_box dim (q_x0 f) (q_xf f) X -> Rle (Rabs (Rminus (row_comb a (List.map (fun g => g X) Ws)) (row_comb a' (List.map (fun g => g X) Ws)))) (Rmult B e).
  apply: (comb_bounded dim (q_x0 f) (q_xf f) Hx) => g /List.in_map_iff [v [<- _]].
  apply: pdiff_sep; first exact: Hd.
  apply: stages_sep; [by rewrite List.map_length (proj1 Hcs)|by apply: zeros_ok; exact: (o_vals dim (q_css f) Hcs)|exact: G_sep].
exists B; split=> // c1 c2 e F1 F2 Hnr X HX.
have E (a : nat -> R) : pdiff 0 d (Zq f a) X = Rplus (pdiff 0 d (stages 0 (q_phis f) (q_css f) (fun _ => R0)) X) (row_comb a (List.map (fun g => g X) Ws)).
  rewrite -(pde_one d) /Zq (Z_pde (q_fam f) (q_nC f) (q_deg f) dim (q_x0 f) (q_xf f) (q_css f) (q_phis f) Hdim Hcs _ _ _ Hone) (pde_one d) /Ws List.map_map; congr Rplus; congr row_comb.
  by apply: List.map_ext => v; rewrite (pde_one d).
rewrite !E.
have -> : forall c s1 s2 : R, Rminus (Rplus c s1) (Rplus c s2) = Rminus s1 s2 by move=> *; lra.
apply: Hb => // i Hi.
have [a1 [Ea1 [Es1 Wa1]]] := form_get keq cp c1 (q_key f) a0 F1 Ea.
have F12 : same_form c1 c2 by case: F1 F2 => [K1 [K2 _]] [L1 [L2 L3]]; split; [rewrite L1|split=> //; rewrite L2].
apply: (@near_get K keq c1 c2 e (q_key f) i a1) => //; first by case: F1 => _ [].
have Ew : List.length (a_data a1) = mtfc_num (q_u f) false by rewrite Wa1 Es1 Es; cbn; lia.
by rewrite Ew; move: Hi; rewrite /Ws List.map_length (o_num jvpn Hj _ _ _ _ _ dim _ _ _ _ _ _ Hu Hdim HnC false).
Qed.
End Main.

Section Newton.
Variables (jvpn : (seq R -> R) -> seq R -> seq R -> R) (K : Type) (keq : K -> K -> bool) (dim : nat) (fs : seq (qfun (K:=K))) (eqs : seq qeqn).
Variables (cp : seq (K * @arr R)) (p : nat -> pt -> R) (res : seq (K * @arr R) -> seq R).
Local Notation view := (seq (K * @arr R)).
Variables (jacfwd : (view -> seq R) -> view -> view) (s : method_).
Hypotheses (Hk : keq_ok keq) (Hn : List.NoDup (List.map fst cp)) (Hok : @entries_ok R_realFieldType K Plain cp).
Hypothesis Hset : forall f, List.In f fs -> qsetting jvpn dim f.
Hypothesis Hfit : forall e, List.In e eqs -> fit_qexp (List.length fs) dim (q_lhs e).
Hypothesis Hres : forall c, same_form cp c -> residualQ jvpn keq dim c fs eqs (res c).
Hypothesis Hjac : differentiatesD keq jacfwd cp.
Hypothesis Hp : surfacesQ jvpn keq dim cp fs p.
Hypothesis Hsol : forall e, List.In e eqs -> solves_qeqn p e.
Hypothesis Hreg : forall e X, List.In e eqs -> List.In X (q_pts e) -> qregular (q_lhs e) p X.
Hypothesis Hiso : isolatedQ jvpn dim fs eqs p.
Hypothesis Hs : valid_method s.
Local Notation Y := (Yq keq dim fs).
Local Notation res1 := (fun l : seq (dvalue R K unit) => if l is DUnk c :: _ then res c else [::]).

Lemma pg_sys : exists radius c : R, [/\ Rlt 0 radius, Rlt 0 c &
  forall i f d, List.nth_error fs i = Some f -> Peano.le (List.length d) dim -> exists B C : R, [/\ Rle 0 B, Rle 0 C &
  forall h (dd : @tdict R K) z, List.NoDup (List.map fst (td_items dd)) -> contents h dd = Some z -> same_form cp z -> near radius cp z ->
  forall timer printOut tol maxIter fuel, Rlt 0 tol -> Z.le maxIter (Z.of_nat fuel) -> Peano.le 1 fuel ->
  exists c' k out y,
    fst (dNLLS keq Plain (1 : R_realFieldType) Rminus (@l_solve R_realFieldType) (@l_maxabs R_realFieldType) (@v_gt R_realFieldType) jacfwd fuel h dd
           res1 [::] [::] None tol maxIter s timer printOut) = NReturns (NResult (DUnk c') (Z.of_nat k) out) /\
    [/\ same_form cp c', surfacesQ jvpn keq dim c' fs y, forall j g, List.nth_error fs j = Some g -> meets_all (q_css g) (y j),
      close_on dim (q_x0 f) (q_xf f) d (y i) (p i) (Rdiv B (pow 2 (2 ^ k))) &
      forall K', Rlt tol 1 -> Rle 2 (Rmult (Rmult tol c) (pow 2 (2 ^ K'))) -> Z.lt (Z.of_nat K'.+1) maxIter ->
        (k <= K'.+1)%N /\ close_on dim (q_x0 f) (q_xf f) d (y i) (p i) (Rmult C tol)]]].
Proof.
have W := ok_wf Hok; have F0 := form_self W.
have Hkey f : List.In f fs -> exists a, v_get keq cp (q_key f) = Some a /\ a_shape a = [:: mtfc_num (q_u f) false].
  by move=> /(@List.In_nth_error _ _ _) [i Ef]; have [a [E1 [E2 _]]] := Hp Ef; exists a.
have Hpy := surf_lt Hset Hp.
pose jb i := List.nth i (jobsQ eqs) jobQ0.
pose m := List.length (jobsQ eqs).
have Hjb i : Peano.lt i m -> List.In (jb i).1 eqs /\ List.In (jb i).2 (q_pts (jb i).1).
  by move=> Hi; apply/in_jobsQ; rewrite -surjective_pairing; exact: List.nth_In.
have [|a Ha] := @choose_nat _ (ALin (fun _ _ => R0) R0) (fun i a => forall c, same_form cp c ->
  [/\ aval a c = qexp_at (q_lhs (jb i).1) (Y c) (jb i).2,
      forall c1 c2, same_form cp c1 -> same_form cp c2 -> adir a c c1 c2 = dqexp_at (q_lhs (jb i).1) (Y c) (fun i S => Rminus (Y c2 i S) (Y c1 i S)) (jb i).2,
      forall c1 c2, same_form cp c1 -> same_form cp c2 -> (forall i, Peano.lt i (List.length fs) -> forall S, Y c1 i S = Y c2 i S) -> aagree a c1 c2 &
      c = cp -> qregular (q_lhs (jb i).1) (Y cp) (jb i).2 -> areg cp a]) m.
  by move=> i /Hjb [He _]; exact: (qtree_ok Hk Hn Hset Hkey (jb i).2 (Hfit He)).
have HaI i (Hi : (i < m)%N) := Ha i (elimT ltP Hi).
have Hr c : same_form cp c -> res c = List.map (fun i => aval (a i) c) (List.seq 0 m).
  move=> Fc; rewrite (residualQ_is Hset Hfit (Hres Fc)).
  apply: (@List.nth_ext _ _ _ R0 R0); first by rewrite !List.map_length List.seq_length.
  rewrite List.map_length -/m => i Hi.
  rewrite (List.nth_indep _ _ (qexp_at (q_lhs jobQ0.1) (Y c) jobQ0.2)); last by rewrite List.map_length.
  rewrite (List.map_nth (fun q => qexp_at (q_lhs q.1) (Y c) q.2)) -/(jb i).
  rewrite (List.nth_indep _ R0 (aval (a 0%N) c)); last by rewrite List.map_length List.seq_length.
  rewrite (List.map_nth (fun i => aval (a i) c)) List.seq_nth //.
  by have [-> _ _ _] := Ha i Hi c Fc.
have Hrg i : (i < m)%N -> areg cp (a i).
  move=> Hi; have [_ _ _ H] := HaI i Hi cp F0; have [He HX] := Hjb i (elimT ltP Hi); apply: H => //.
  exact: (qregular_same (Hfit He) Hpy (Hreg He HX)).
have Hz0 i : (i < m)%N -> aval (a i) cp = R0.
  move=> Hi; have [-> _ _ _] := HaI i Hi cp F0; have [He HX] := Hjb i (elimT ltP Hi).
  by rewrite -(qexp_same _ (Hfit He) Hpy); exact: (Hsol He HX).
have Hker c : same_form cp c -> (forall i, (i < m)%N -> adir (a i) cp cp c = R0) -> forall i f, List.nth_error fs i = Some f -> forall X, Y c i X = p i X.
  move=> Fc Hh; apply: Hiso.
    by move=> i f Ef; exists (get keq c (q_key f)); rewrite /Yq Ef; exact: (Zq_surface Hset _ (List.nth_error_In _ _ Ef)).
  move=> e X He HX; have [i [Hi Ei]] := List.In_nth _ _ jobQ0 (proj2 (in_jobsQ eqs e X) (conj He HX)).
  have [_ H _ _] := Ha i Hi cp F0; have := Hh i (introT ltP Hi); rewrite (H cp c F0 Fc) /jb Ei /= => HH; refine (eq_trans _ HH).
  by apply: (dqexp_same X (Hfit He) Hpy) => j Hj S; rewrite Hpy.
have Hid c : same_form cp c -> (forall i, (i < m)%N -> adir (a i) cp cp c = R0) -> forall i, (i < m)%N -> aagree (a i) cp c.
  move=> Fc Hh i Hi; have [_ _ H _] := HaI i Hi cp F0; apply: H => // j Hj S.
  by have [f Ef] := fs_nth Hj; rewrite -Hpy // (Hker c Fc Hh j f Ef).
have [radius [c [C [H1 H2 H3 Hgo]]]] := newton_trees Hk Hn Hok Hr Hjac Hs Hrg Hz0 Hid.
exists radius, c; split=> // i f d Ef Hd.
have Hf := List.nth_error_In _ _ Ef.
have [B [HB Hbnd]] := Zq_bound Hset Hkey Hf Hd.
exists (Rdiv B c), (Rmult B C); split.
- by apply: Rmult_le_pos => //; left; apply: Rinv_0_lt_compat.
- by apply: Rmult_le_pos => //; lra.
move=> h dd z Hnd Hcz Fz Hz timer printOut tol maxIter fuel Htol HM Hfl.
have [cx [Fx Hx Hgo']] := Hgo h dd z Hnd Hcz Fz Hz.
have Ep := Hker cx Fx Hx i f Ef.
have [c' [k [out [E1 F1 E3 E4]]]] := Hgo' timer printOut tol maxIter fuel Htol HM Hfl.
have Hcl x x' : near x cx c' -> Rmult B x = x' -> close_on dim (q_x0 f) (q_xf f) d (Y c' i) (p i) x'.
  move=> Hnr <- X HX; have := Hbnd cx c' x Fx F1 Hnr X HX.
  rewrite (pdiff_ext d 0 (p i) (Y cx i) X); last by move=> S; rewrite Ep.
  by rewrite (pdiff_ext d 0 (Y cx i) (Zq dim f (get keq cx (q_key f))) X) ?(pdiff_ext d 0 (Y c' i) (Zq dim f (get keq c' (q_key f))) X) //; move=> S; rewrite /Yq Ef.
have Hpw : Rlt 0 (pow 2 (2 ^ k)) by apply: pow_lt; lra.
exists c', k, out, (Y c'); split; first exact: E1.
split=> //.
- exact: (surf_ex Hset Hkey).
- by move=> j g Eg; rewrite /Yq Eg; exact: (Zq_meets Hset _ (List.nth_error_In _ _ Eg)).
- apply: Hcl E3 _.
  rewrite Rinv_mult_distr; [|exact: Rgt_not_eq|exact: Rgt_not_eq].
  by rewrite /Rdiv Rmult_assoc.
move=> K' Ht1 H4 HM'; have [H5 H6] := E4 K' Ht1 H4 HM'; split=> //.
by apply: Hcl H6 _; rewrite -Rmult_assoc.
Qed.
End Newton.

(** ** C117 *)
(** Let the functions [p] be what the script has for the dictionary [cp], let them solve the equations at
    their points, let the functions applied in the equations be smooth near the values there, and let
    the equations linearised at [p] have no other solution there among the differences of functions
    that the script's expressions give.  Then NLLS from any dictionary close to [cp] returns after [k]
    iterations a dictionary of the same form whose functions meet all conditions at all points and are
    within [B / 2^(2^k)] of [p] on the whole box, with derivatives of any orders.  With enough
    iterations allowed it stops by itself, within a multiple of [tol]. *)
Theorem C117_converges : forall jvpn (K : Type) (keq : K -> K -> bool) dim fs eqs cp p res jacfwd s,
  keq_ok keq -> List.NoDup (List.map fst cp) -> cp <> [::] -> List.Forall (fun p => is1d (snd p)) cp ->
  (forall f, List.In f fs -> qsetting jvpn dim f) -> (forall e, List.In e eqs -> fit_qexp (List.length fs) dim (q_lhs e)) ->
  (forall c, same_form cp c -> residualQ jvpn keq dim c fs eqs (res c)) -> differentiatesD keq jacfwd cp ->
  surfacesQ jvpn keq dim cp fs p -> (forall e, List.In e eqs -> solves_qeqn p e) ->
  (forall e X, List.In e eqs -> List.In X (q_pts e) -> qregular (q_lhs e) p X) -> isolatedQ jvpn dim fs eqs p -> valid_method s ->
  exists radius c : R, [/\ Rlt 0 radius, Rlt 0 c &
  forall i f d, List.nth_error fs i = Some f -> Peano.le (List.length d) dim -> exists B C : R, [/\ Rle 0 B, Rle 0 C &
  forall h (dd : @tdict R K) z, List.NoDup (List.map fst (td_items dd)) -> contents h dd = Some z -> same_form cp z -> near radius cp z ->
  forall timer printOut tol maxIter fuel, Rlt 0 tol -> Z.le maxIter (Z.of_nat fuel) -> Peano.le 1 fuel ->
  exists c' k out y,
    fst (dNLLS keq Plain (1 : R_realFieldType) Rminus (@l_solve R_realFieldType) (@l_maxabs R_realFieldType) (@v_gt R_realFieldType) jacfwd fuel h dd
           (fun l : seq (dvalue R K unit) => if l is DUnk c :: _ then res c else [::]) [::] [::] None tol maxIter s timer printOut)
      = NReturns (NResult (DUnk c') (Z.of_nat k) out) /\
    [/\ same_form cp c', surfacesQ jvpn keq dim c' fs y, forall j g, List.nth_error fs j = Some g -> meets_all (q_css g) (y j),
      close_on dim (q_x0 f) (q_xf f) d (y i) (p i) (Rdiv B (pow 2 (2 ^ k))) &
      forall K', Rlt tol 1 -> Rle 2 (Rmult (Rmult tol c) (pow 2 (2 ^ K'))) -> Z.lt (Z.of_nat K'.+1) maxIter ->
        (k <= K'.+1)%N /\ close_on dim (q_x0 f) (q_xf f) d (y i) (p i) (Rmult C tol)]]].
Proof.
move=> jvpn K keq dim fs eqs cp p res jacfwd s Hk Hn Hne H1 Hset Hfit Hr Hj Hp Hsol Hreg Hiso Hs.
exact: (pg_sys Hk Hn (conj Hne H1) Hset Hfit Hr Hj Hp Hsol Hreg Hiso Hs).
Qed.
Print Assumptions C117_converges.

Lemma choose_q (K A : Type) (keq : K -> K -> bool) (d : K -> A) (fs : seq (qfun (K:=K))) : keq_ok keq -> forall (P : nat -> qfun (K:=K) -> A -> Prop), List.NoDup (List.map q_key fs) ->
  (forall i f, List.nth_error fs i = Some f -> exists a, P i f a) -> exists B : K -> A, forall i f, List.nth_error fs i = Some f -> P i f (B (q_key f)).
Proof.
move=> Hk; elim: fs => [|f fs IH] P Hnd H; first by exists d => -[|i] f.
inversion Hnd as [|? ? Hf Hnd']; subst; have [a Ha] := H 0%N f erefl.
have [B HB] := IH (fun i => P i.+1) Hnd' (fun i g E => H i.+1 g E).
exists (fun k => if keq k (q_key f) then a else B k) => -[|i] g E; rewrite /= in E.
  by case: E => <-; rewrite keq_t.
rewrite keq_f //; first exact: HB.
by move=> EE; apply: Hf; rewrite -EE; apply: List.in_map; exact: (List.nth_error_In _ _ E).
Qed.
(** Such a dictionary exists for all functions that the expressions give, in particular for polynomials of
    the bases' degrees that meet the conditions, if the functions have keys of their own; and the
    script's residual exists for every dictionary of the form and is zero exactly when the equations
    are solved. *)
Theorem C117_reached : forall jvpn (K : Type) (keq : K -> K -> bool) dim fs eqs (c : seq (K * @arr R)) p,
  keq_ok keq -> List.NoDup (List.map fst c) -> List.NoDup (List.map q_key fs) ->
  (forall f, List.In f fs -> qsetting jvpn dim f) -> (forall e, List.In e eqs -> fit_qexp (List.length fs) dim (q_lhs e)) ->
  (forall f, List.In f fs -> exists a, v_get keq c (q_key f) = Some a /\ a_shape a = [:: mtfc_num (q_u f) false]) ->
  ((forall i f, List.nth_error fs i = Some f -> exists xi, surface jvpn (q_u f) dim (q_css f) (q_phis f) xi (p i)) ->
     exists cp, same_form c cp /\ surfacesQ jvpn keq dim cp fs p) /\
  (forall m, (forall i f, List.nth_error fs i = Some f -> [/\ q_fam f <> FS, total_degree dim (q_deg f) (m i) & meets_all (q_css f) (mpoly_at dim (m i))]) ->
     exists cp, same_form c cp /\ surfacesQ jvpn keq dim cp fs (fun i => mpoly_at dim (m i))) /\
  (forall c', same_form c c' -> exists z r, [/\ surfacesQ jvpn keq dim c' fs z, residualQ jvpn keq dim c' fs eqs r,
     (forall r', residualQ jvpn keq dim c' fs eqs r' -> r' = r) &
     (forall x, List.In x r -> x = R0) <-> forall e, List.In e eqs -> solves_qeqn z e]).
Proof.
move=> jvpn K keq dim fs eqs c p Hk Hn Hnd Hset Hfit Hkey.
have Hfirst p' : (forall i f, List.nth_error fs i = Some f -> exists xi, surface jvpn (q_u f) dim (q_css f) (q_phis f) xi (p' i)) ->
     exists cp, same_form c cp /\ surfacesQ jvpn keq dim cp fs p'.
  move=> Hp; have [B HB] := choose_q (fun _ _ => R0) Hk Hnd Hp.
  have Ff := fill_form c B; exists (fill c B); split=> // i f Ef.
  have Hf := List.nth_error_In _ _ Ef; have [a [Ea Es]] := Hkey f Hf.
  have [a' [Ea' [Es' _]]] := form_get keq c (fill c B) (q_key f) a Ff Ea.
  exists a'; split=> //; split; first by rewrite Es'.
  have := HB i f Ef => Hs; have Ez := surface_Zq Hset Hf Hs.
  have [Hj [Hdim [_ [Hu [HnC _]]]]] := Hset f Hf.
  have Eg : get keq (fill c B) (q_key f) = fun j => List.nth j (a_data a') R0 by rewrite /get Ea'.
  rewrite -Eg; have [g [Hg Hz]] := Zq_surface Hset (get keq (fill c B) (q_key f)) Hf.
  exists g; split=> // X; rewrite Ez -Hz /Zq; apply: stages_ext => S; apply: row_comb_lt => j.
  rewrite List.map_length -(o_num jvpn Hj _ _ _ _ _ dim _ _ _ _ _ _ Hu Hdim HnC false) => Hjl.
  by symmetry; apply: (fill_get keq Hk c Hn B _ (mtfc_num (q_u f) false)) => //; exists a.
split; first exact: Hfirst.
split.
  move=> m Hm; apply: Hfirst => i f Ef; have [H1 H2 H3] := Hm i f Ef.
  have [_ H] := C95_conditions (Hset f (List.nth_error_In _ _ Ef)).
  exact: (H H1 (m i) H2 H3).
move=> c' Fc; exists (Yq keq dim fs c'), (List.map (fun q => qexp_at (q_lhs q.1) (Yq keq dim fs c') q.2) (jobsQ eqs)); split.
- exact: (surf_ex Hset Hkey).
- exact: (residualQ_ex eqs Hset Hkey).
- by move=> r'; exact: residualQ_is.
split=> H.
  move=> e He X HX; exact: (H _ (List.in_map (fun q => qexp_at (q_lhs q.1) (Yq keq dim fs c') q.2) _ _ (proj2 (in_jobsQ eqs e X) (conj He HX)))).
by move=> x /List.in_map_iff [[e X] [<- /in_jobsQ [He HX]]] /=; exact: (H e He X HX).
Qed.
Print Assumptions C117_reached.

(** z_xy + z w = 1 + (x + x y)^2 and w_xy = z_xy with z = w = 0 where x = 0 and z = w = x where y = 0, nine points, degree 2:
    NLLS with [maxIter] 10 from any dictionary close to the one of z = w = x + x y gives two functions that meet the conditions
    and are close to these on the whole square. *)
Definition ex_h (X : pt) : R := Ropp (Rplus R1 (Rmult (Rplus (X 0%N) (Rmult (X 0%N) (X 1%N))) (Rplus (X 0%N) (Rmult (X 0%N) (X 1%N))))).
Definition ex_minus : seq ((pt -> R) * seq nat) := [:: (fun _ => Ropp R1, [:: 1; 1]%N)].
Definition ex_fun (k : nat) u : qfun (K:=nat) :=
  @QFun nat k Py CP [:: 3; 3]%N (MList [:: EInt (Zpos xH); EInt (Zpos xH)]) 2 [:: R0; R0] [:: R1; R1] [::] [::] u ex_css ex_phis.
Definition ex_eqs (Xs : seq pt) : seq qeqn :=
  [:: QEqn Xs (QAdd (QLin [:: (0%N, ex_co)]) (QAdd (QMul (QLin [:: (0%N, ex_ca)]) (QLin [:: (1%N, ex_ca)])) (QCoef ex_h)));
      QEqn Xs (QLin [:: (1%N, ex_co); (0%N, ex_minus)])].
Lemma ex_minusE z X : pde ex_minus z X = Ropp (pde ex_co z X).
Proof. by cbn [pde ex_minus ex_co]; lra. Qed.
Example C117_case : exists u cp res (radius c C : R),
  let fs := [:: ex_fun 0 u; ex_fun 1 u] in
  let eqs := ex_eqs (List.map (point_of (m_x u)) (List.seq 0 (m_N u))) in
  [/\ mkm Py (MB CP) [:: 3; 3]%N (MList [:: EInt (Zpos xH); EInt (Zpos xH)]) 2 2 [:: R0; R0] [:: R1; R1] [::] [::] = Some u,
      List.map fst cp = [:: 0%N; 1%N], forall c', same_form cp c' -> residualQ cjvpn Nat.eqb 2 c' fs eqs (res c'), Rlt 0 radius /\ Rlt 0 c &
  forall h (d : @tdict R nat) z (tol : R), List.NoDup (List.map fst (td_items d)) -> contents h d = Some z -> same_form cp z -> near radius cp z ->
  Rlt 0 tol -> Rlt tol 1 -> Rle 2 (Rmult (Rmult tol c) (pow 2 (2 ^ 8))) ->
  exists c' k out y,
    fst (dNLLS Nat.eqb Plain (1 : R_realFieldType) Rminus (@l_solve R_realFieldType) (@l_maxabs R_realFieldType) (@v_gt R_realFieldType) (deriveD Nat.eqb) 10 h d
           (fun l : seq (dvalue R nat unit) => if l is DUnk c :: _ then res c else [::]) [::] [::] None tol 10 Pinv false false)
      = NReturns (NResult (DUnk c') (Z.of_nat k) out) /\
    [/\ (k <= 9)%N, surfacesQ cjvpn Nat.eqb 2 c' fs y, meets_all ex_css (y 0%N) /\ meets_all ex_css (y 1%N) &
        forall X, in_box 2 [:: R0; R0] [:: R1; R1] X -> Rle (Rabs (Rminus (y 1%N X) (Rplus (Rmult (X 0%N) (X 1%N)) (X 0%N)))) (Rmult C tol)]].
Proof.
have [u [Hu Hset]] := ex_setting; have [Ho [Hoa _]] := ex_orders.
have H12 : Peano.le 1 2 by lia.
pose fs := [:: ex_fun 0 u; ex_fun 1 u]; pose Xs := List.map (point_of (m_x u)) (List.seq 0 (m_N u)); pose eqs := ex_eqs Xs.
have Hk : keq_ok Nat.eqb by move=> x y; exact: Nat.eqb_eq.
pose N := mtfc_num u false.
pose c0 : seq (nat * @arr R) := [:: (0%N, Arr_ [:: N] (List.repeat R0 N)); (1%N, Arr_ [:: N] (List.repeat R0 N))].
have Hn : List.NoDup (List.map fst c0) by rewrite /=; repeat constructor => /=; intuition discriminate.
have Hnk : List.NoDup (List.map q_key fs) by rewrite /=; repeat constructor => /=; intuition discriminate.
have Hsets f : List.In f fs -> qsetting cjvpn 2 f by move=> [<-|[<-|[]]].
have Hom : orders_fit 2 ex_minus by move=> g d [[_ <-]|[]] /=; lia.
have Hfit e : List.In e eqs -> fit_qexp (List.length fs) 2 (q_lhs e).
  move=> [<-|[<-|[]]] /=.
    split; first by move=> t [<-|[]] /=; split; [lia|exact: Ho].
    split; last exact: I.
    by split; move=> t [<-|[]]; (split; [rewrite /=; lia|exact: Hoa]).
  by move=> t [<-|[<-|[]]] /=; split; [lia|exact: Ho|lia|exact: Hom].
have Hkey f : List.In f fs -> exists a, v_get Nat.eqb c0 (q_key f) = Some a /\ a_shape a = [:: mtfc_num (q_u f) false].
  by move=> [<-|[<-|[]]]; eexists; split; reflexivity.
pose p (i : nat) := mpoly_at 2 ex_sol.
have [_ [Hreach _]] := @C117_reached cjvpn nat Nat.eqb 2 fs eqs c0 p Hk Hn Hnk Hsets Hfit Hkey.
have [|cp [Fcp Hp]] := Hreach (fun _ => ex_sol).
  have H3 f : [/\ CP <> FS, total_degree 2 2 ex_sol & meets_all (q_css (ex_fun f u)) (mpoly_at 2 ex_sol)] by split; [discriminate|exact: ex_degree|exact: ex_meets].
  by move=> [|[|i]] f; [move=> [<-]; exact: (H3 0%N)|move=> [<-]; exact: (H3 1%N)|case: i].
have Fk : List.map fst cp = [:: 0%N; 1%N] by exact: (proj1 Fcp).
have Hncp : List.NoDup (List.map fst cp) by rewrite Fk; exact: Hn.
have Hkeyp f : List.In f fs -> exists a, v_get Nat.eqb cp (q_key f) = Some a /\ a_shape a = [:: mtfc_num (q_u f) false].
  by move=> Hf; have [a [E1 E2]] := Hkey f Hf; have [a' [E3 [E4 _]]] := form_get Nat.eqb c0 cp (q_key f) a Fcp E1; exists a'; rewrite E4.
have Hne0 : cp <> [::] by move=> E; rewrite E in Fk.
have [_ H1] : @entries_ok R_realFieldType nat Plain cp.
  apply: (form_ok (F:=R_realFieldType) Fcp); split=> //.
  by constructor; [|constructor; [|constructor]]; rewrite /is1d /= List.repeat_length.
pose res c' := List.map (fun q => qexp_at (q_lhs q.1) (Yq Nat.eqb 2 fs c') q.2) (jobsQ eqs).
have Hr c' : same_form cp c' -> residualQ cjvpn Nat.eqb 2 c' fs eqs (res c') by move=> Fc; exact: (residualQ_ex eqs Hsets Hkeyp Fc).
have Hpart a cc X z := @ex_parts a cc X z.
have P1 X i : pde ex_co (p i) X = R1 /\ pde ex_ca (p i) X = Rplus (X 0%N) (Rmult (X 0%N) (X 1%N)).
  by have [|E1 [E2 _]] := @ex_parts R1 R1 X (p i); [move=> Y; rewrite /p ex_sol_at; lra|rewrite E1 E2; split=> //; lra].
have Hsol e : List.In e eqs -> solves_qeqn p e.
  move=> [<-|[<-|[]]] X _; cbn [qexp_at psum_at q_lhs fst snd].
    by rewrite (proj1 (P1 X _)) !(proj2 (P1 X _)) /ex_h; lra.
  by rewrite ex_minusE !(proj1 (P1 X _)); lra.
have Hreg e X : List.In e eqs -> List.In X (q_pts e) -> qregular (q_lhs e) p X.
  by move=> [<-|[<-|[]]] _; cbn [qregular q_lhs]; [split; [exact: I|split; [split; exact: I|exact: I]]|exact: I].
have Hiso : isolatedQ cjvpn 2 fs eqs p.
  move=> z Hz Hl.
  have Hform i f : List.nth_error fs i = Some f -> exists cc, forall X, z i X = Rplus (X 0%N) (Rmult cc (Rmult (X 0%N) (X 1%N))).
    move=> Ef; have [xi Hxi] := Hz i f Ef.
    have Hf := List.nth_error_In _ _ Ef; have Ez := surface_Zq Hsets Hf Hxi.
    have [cc Ec] := ex_form Py _ u xi Hu; exists cc => X; rewrite Ez -Ec.
    by case: Hf => [<-|[<-|[]]].
  have [a Ea] := Hform 0%N _ erefl; have [b Eb] := Hform 1%N _ erefl.
  have [H0 HX] := ex_origin Py u Hu.
  pose X := point_of (m_x u) 0; have E0 : X 0%N = R0 by apply: HX; lia.
  have HinX : List.In X Xs by apply: List.in_map; apply/List.in_seq; lia.
  have V i cc : (forall Y, z i Y = Rplus (Y 0%N) (Rmult cc (Rmult (Y 0%N) (Y 1%N)))) ->
      pde ex_co (fun Y => Rminus (z i Y) (p i Y)) X = Rminus cc R1 /\ pde ex_ca (fun Y => Rminus (z i Y) (p i Y)) X = R0.
    move=> E; have [|E1 [E2 _]] := @ex_parts R0 (Rminus cc R1) X (fun Y => Rminus (z i Y) (p i Y)).
      by move=> Y; rewrite E /p ex_sol_at; lra.
    by rewrite E1 E2 E0; split=> //; lra.
  have [V1 V2] := V 0%N a Ea; have [V3 V4] := V 1%N b Eb.
  have L1 := Hl _ X (or_introl erefl) HinX; have L2 := Hl _ X (or_intror (or_introl erefl)) HinX.
  cbn [dqexp_at psum_at qexp_at q_lhs fst snd] in L1, L2; rewrite ex_minusE V1 V3 in L2; rewrite V1 V2 V4 in L1.
  have Ha : a = R1 by lra.
  have Hb : b = R1 by lra.
  by move=> [|[|i]] f Ef Y; [rewrite Ea Ha /p ex_sol_at; lra|rewrite Eb Hb /p ex_sol_at; lra|case: i Ef].
have [radius [c [Hrad Hc Hgo]]] := @C117_converges cjvpn nat Nat.eqb 2 fs eqs cp p res (deriveD Nat.eqb) Pinv Hk Hncp Hne0 H1 Hsets Hfit Hr
  (deriveD_ok Nat.eqb cp) Hp Hsol Hreg Hiso ltac:(by []).
have [|B [C [_ HC Hrun]]] := Hgo 1%N _ [::] erefl; first by rewrite /=; lia.
exists u, cp, res, radius, c, C; split=> // h d z tol Hd Hz Fz Hnear Ht0 Ht1 Hbig.
have [c' [k [out [y [E1 [F1 Hsu Hm _ Hstop]]]]]] := Hrun h d z Hd Hz Fz Hnear false false tol (Zpos 10) 10%N Ht0 ltac:(lia) ltac:(lia).
have [|Hk9 Hcl] := Hstop 8%N Ht1 Hbig; first by lia.
exists c', k, out, y; split; first exact: E1.
split; [exact: Hk9|exact: Hsu| |].
- by split; [exact: (Hm 0%N _ erefl)|exact: (Hm 1%N _ erefl)].
by move=> X HX; have := Hcl X HX; rewrite /= /p ex_sol_at.
Qed.
