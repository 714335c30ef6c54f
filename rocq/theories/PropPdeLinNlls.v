(** C118, the whole of NLLS: systems of linear partial differential equations with a dictionary of
    unknowns. *)
From Coq Require Import ZArith Lia Reals Lra Sorting.Sorted.
From Coquelicot Require Import Coquelicot.
From mathcomp Require Import all_ssreflect all_algebra.
From Verif Require Import Base ModelDict SpecDict ProofDict ModelPe SpecPe ModelSolve ModelSolveDict SpecSolveDict ProofSolveDict
  ModelPinv SpecPinv ModelAffine SpecAffine ModelAffineDict SpecAffineDict ProofAffineDict ModelNllsDict SpecNllsDict ProofNllsDict PropNllsDict
  SpecNewton ProofNewton PropNewton SpecIdle ProofNewton5 PropIdle PropNllsNewton.
From Verif Require Import Numbers ModelBFPy SpecBasis ModelND SpecND ProofND2 ModelELM SpecELM ModelNELM SpecNELM ProofNELM2 ModelUtfc SpecUtfc ModelMtfc SpecMtfc ProofMtfc ProofMtfc3 SpecNColl PropNELM PropNColl ProofColl ProofRecover
  RealStruct SpecRecover PropRecover ModelOde SpecOde ProofOde PropOde PropOdeNl ModelPde SpecPde ProofPde ProofPde2 ProofPde3 PropPde ProofOdeNl2 ModelPdeNl SpecPdeNl ProofPdeNl ProofPdeNl2 PropPdeNl
  ModelOdeSys SpecOdeSys ProofOdeSys PropOdeSys ModelOdeSysNl SpecOdeSysNl ProofOdeSysNl PropOdeSysNl ModelOdeSysG SpecOdeSysG ProofOdeSysG PropOdeSysG
  PropAffineDict ModelPdeSys SpecPdeSys ProofPdeSys PropPdeSys SpecPdeLin PropPdeLin ProofNRecover.
Set Implicit Arguments.
Unset Strict Implicit.
Unset Printing Implicit Defensive.
Import GRing.Theory Num.Theory.
Local Open Scope ring_scope.

(** From any coefficients whose residual is not small already, NLLS on a TFCDict, or on a TFCDictRobust,
    returns after one or two iterations functions that meet all conditions and, of all functions the
    expressions can give, fit the equations best; if some functions they can give solve the equations
    at the points, so do these. *)
Theorem C118_nlls : forall jvpn (K : Type) (keq : K -> K -> bool) cl dim fs eqs jacfwd res h (d : @tdict R K) c s tol maxIter timer printOut fuel,
  keq_ok keq -> List.NoDup (List.map fst (td_items d)) -> contents h d = Some c -> @entries_ok R_realFieldType K cl c ->
  List.NoDup (List.map q_key fs) -> (forall f, List.In f fs -> qsetting jvpn dim f) ->
  (forall e, List.In e eqs -> fit_qexp (List.length fs) dim (q_lhs e) /\ linear_qexp (q_lhs e)) ->
  (forall f, List.In f fs -> exists a, v_get keq c (q_key f) = Some a /\ a_shape a = [:: mtfc_num (q_u f) false]) ->
  (forall c', same_form c c' -> residualQ jvpn keq dim c' fs eqs (res c')) -> differentiatesS jacfwd c ->
  (0 < size (packed c))%N -> valid_method s -> Rle 0 tol -> Rlt tol 1 -> Z.le 1 maxIter -> Z.le maxIter (Z.of_nat fuel) ->
  (exists r, List.In r (res c) /\ Rlt tol (Rabs r)) ->
  exists c' k out y,
    fst (dNLLS keq cl (1 : R_realFieldType) Rminus (@l_solve R_realFieldType) (@l_maxabs R_realFieldType) (@v_gt R_realFieldType) jacfwd fuel h d
           (fun l : seq (dvalue R K unit) => if l is DUnk c' :: _ then res c' else [::]) [::] [::] None tol maxIter s timer printOut)
      = NReturns (NResult (DUnk c') (Z.of_nat k) out) /\ (0 < k <= 2)%N /\ same_form c c' /\
    surfacesQ jvpn keq dim c' fs y /\ (forall i f, List.nth_error fs i = Some f -> meets_all (q_css f) (y i)) /\
    (forall p, givable jvpn dim fs p -> Rle (misfitQ eqs y) (misfitQ eqs p)) /\
    ((exists p, givable jvpn dim fs p /\ forall e, List.In e eqs -> solves_qeqn p e) -> forall e, List.In e eqs -> solves_qeqn y e).
Proof.
move=> jvpn K keq cl dim fs eqs jacfwd res h d c s tol maxIter timer printOut fuel Hk Hnd Hc He Hnk Hset Heq Hkey Hr Hj Hp Hs Ht0 Ht1 HM1 HM2 [r [Hr1 Hr2]].
have Hn : List.NoDup (List.map fst c) by have [_ <-] := contents_ld _ _ _ Hc.
have Hfit e Hi := proj1 (Heq e Hi); have Hlin e Hi := proj2 (Heq e Hi).
have [m [M [b Ha]]] := lin_affine Hk Hn Hset Hfit Hlin Hkey Hr Hj.
have HF : Peano.le 1 fuel by lia.
have Ht : 0 <= (tol : R_realFieldType) by apply/RlebP.
pose res1 := (fun l : seq (dvalue R K unit) => if l is DUnk c' :: _ then res c' else [::]).
have [c' [k [out [EE [Hk2 [Fc [Hpos Hb]]]]]]] := @C109_affine R_realFieldType K unit keq cl jacfwd m h d c [::] res1 M b [::] s tol maxIter timer printOut fuel
  Hk Hnd Hc He Ha Hs (Sorting.Sorted.SSorted_nil _) (List.Forall_nil _) Ht HM2 HF.
have Hk0 : (0 < k)%N.
  apply: Hpos; [exact: Hp|by apply/RltbP|exact: HM1|].
  exists r; last by apply/RltbP.
  move: Hr1 => /=; elim: (res c) => //= x l IH [->|Hi]; rewrite inE; [by rewrite eqxx|by rewrite IH ?orbT].
have {}Hb := Hb Hk0.
have [B1 B2] := lin_best Hk Hn Hnk Hset Hfit Hkey Hr Fc Hb.
exists c', k, out, (Yq keq dim fs c'); split; first exact: EE.
split; first by rewrite Hk0 Hk2.
split; first exact: Fc.
split; first exact: (surf_ex Hset Hkey Fc).
split; first exact: (lin_meets keq Hset c').
by split; [exact: B1|exact: B2].
Qed.
Print Assumptions C118_nlls.

(** The equations of C118_case, with a TFCDictRobust: NLLS from zeros gives z = w = x + x y everywhere. *)
Lemma exl_zero u k X (xi : nat -> R) : (forall j, xi j = R0) -> Zq 2 (ex_fun k u) xi X = X 0%N.
Proof.
move=> H0; rewrite /Zq /=.
rewrite /ProofPde2.Z (stages_ext ex_phis ex_css 0 _ (fun _ => R0)).
  by rewrite /stages /= /stage /corr /imposed /= /upd /=; lra.
move=> S; refine (eq_trans _ (row_comb_0 _)).
by apply: row_comb_lt => j _; rewrite H0.
Qed.
Example C118_nlls_case : exists u res,
  let fs := [:: ex_fun 0 u; ex_fun 1 u] in
  let eqs := exl_eqs (List.map (point_of (m_x u)) (List.seq 0 (m_N u))) in
  let N := mtfc_num u false in
  let c0 := [:: (0%N, Arr_ [:: N] (List.repeat R0 N)); (1%N, Arr_ [:: N] (List.repeat R0 N))] in
  [/\ mkm Py (MB CP) [:: 3; 3]%N (MList [:: EInt (Zpos xH); EInt (Zpos xH)]) 2 2 [:: R0; R0] [:: R1; R1] [::] [::] = Some u,
      forall c'', same_form c0 c'' -> residualQ cjvpn Nat.eqb 2 c'' fs eqs (res c'') &
      forall h (d : @tdict R nat), List.NoDup (List.map fst (td_items d)) -> contents h d = Some c0 ->
      exists c' k out y,
      fst (dNLLS Nat.eqb Robust (1 : R_realFieldType) Rminus (@l_solve R_realFieldType) (@l_maxabs R_realFieldType) (@v_gt R_realFieldType) (diffS Nat.eqb) 5 h d
           (fun l : seq (dvalue R nat unit) => if l is DUnk c' :: _ then res c' else [::]) [::] [::] None (Rinv 2) 5 Pinv false false)
      = NReturns (NResult (DUnk c') (Z.of_nat k) out) /\
      (0 < k <= 2)%N /\ surfacesQ cjvpn Nat.eqb 2 c' fs y /\
      forall X, y 0%N X = Rplus (X 0%N) (Rmult (X 0%N) (X 1%N)) /\ y 1%N X = Rplus (X 0%N) (Rmult (X 0%N) (X 1%N))].
Proof.
have [u [Hu Hset]] := ex_setting; have [Ho _] := ex_orders.
pose fs := [:: ex_fun 0 u; ex_fun 1 u]; pose Xs := List.map (point_of (m_x u)) (List.seq 0 (m_N u)); pose eqs := exl_eqs Xs.
have Hk : keq_ok Nat.eqb by move=> x y; exact: Nat.eqb_eq.
pose N := mtfc_num u false.
pose c0 : seq (nat * @arr R) := [:: (0%N, Arr_ [:: N] (List.repeat R0 N)); (1%N, Arr_ [:: N] (List.repeat R0 N))].
have Hn : List.NoDup (List.map fst c0) by rewrite /=; repeat constructor => /=; intuition discriminate.
have Hnk : List.NoDup (List.map q_key fs) by rewrite /=; repeat constructor => /=; intuition discriminate.
have Hsets f : List.In f fs -> qsetting cjvpn 2 f by move=> [<-|[<-|[]]].
have Hom : orders_fit 2 ex_minus by move=> g e [[_ <-]|[]] /=; lia.
have Heq e : List.In e eqs -> fit_qexp (List.length fs) 2 (q_lhs e) /\ linear_qexp (q_lhs e).
  move=> [<-|[<-|[]]] /=.
    split; last by split; [exact: I|left; split; [exact: I|split; exact: I]].
    split; last by split; [exact: I|split; exact: I].
    by move=> t [<-|[<-|[]]] /=; (split; [lia|exact: Ho]).
  split; last exact: I.
  by move=> t [<-|[<-|[]]] /=; split; [lia|exact: Ho|lia|exact: Hom].
have Hkey f : List.In f fs -> exists a, v_get Nat.eqb c0 (q_key f) = Some a /\ a_shape a = [:: mtfc_num (q_u f) false].
  by move=> [<-|[<-|[]]]; eexists; split; reflexivity.
have Hent : @entries_ok R_realFieldType nat Robust c0.
  split; first by discriminate.
  have Hw k : (fun p : nat * @arr R => wf (snd p) /\ a_shape (snd p) <> [::]) (k, Arr_ [:: N] (List.repeat R0 N)).
    by split; [rewrite /wf /= List.repeat_length; lia|discriminate].
  by constructor; [exact: Hw|constructor; [exact: Hw|constructor]].
pose res c' := List.map (fun q => qexp_at (q_lhs q.1) (Yq Nat.eqb 2 fs c') q.2) (jobsQ eqs).
have Hr c' : same_form c0 c' -> residualQ cjvpn Nat.eqb 2 c' fs eqs (res c') by move=> Fc; exact: (residualQ_ex eqs Hsets Hkey Fc).
exists u, res; split; [exact: Hu|exact: Hr|] => h d Hnd Hc.
have [H0 _] := ex_origin Py u Hu.
pose X := point_of (m_x u) 0.
have HinX : List.In X Xs by apply: List.in_map; apply/List.in_seq; lia.
have HN : Peano.lt 0 N.
  have [Hj [Hdim [_ [Hu' [HnC _]]]]] := Hset.
  rewrite /N (o_num cjvpn Hj _ _ _ _ _ 2 _ _ _ _ _ _ Hu' Hdim HnC false).
  have -> : mK (MB CP) 2 2 (MList [:: EInt (Zpos xH); EInt (Zpos xH)]) false = [:: [:: 1; 0]; [:: 2; 0]; [:: 0; 1]; [:: 1; 1]; [:: 0; 2]]%N by vm_compute.
  by rewrite /=; lia.
have Hzero k j : get Nat.eqb c0 k j = R0.
  rewrite /get /c0 /v_get /=; case: k => [|[|k]] /=; try exact: List.nth_repeat.
  by case: j.
have Hbig : exists r, List.In r (res c0) /\ Rlt (Rinv 2) (Rabs r).
  exists (Ropp 2); split; last by rewrite Rabs_Ropp Rabs_pos_eq; lra.
  have Hin := List.in_map (fun q => qexp_at (q_lhs q.1) (Yq Nat.eqb 2 fs c0) q.2) _ _ (proj2 (in_jobsQ eqs _ X) (conj (or_introl erefl) HinX)).
  have P i : Peano.lt i 2 -> pde ex_co (Yq Nat.eqb 2 fs c0 i) X = R0.
    move=> Hi; have [|E1 _] := @ex_parts R1 R0 X (Yq Nat.eqb 2 fs c0 i); last by rewrite E1.
    move=> S; rewrite /Yq; have [f Ef] : exists f, List.nth_error fs i = Some f by case: i Hi => [|[|i]] Hi; [eexists; reflexivity|eexists; reflexivity|lia].
    have [k Ek] : exists k, f = ex_fun k u by case: (List.nth_error_In _ _ Ef) => [<-|[<-|[]]]; eexists; reflexivity.
    rewrite Ef Ek (@exl_zero u k S) => [|j]; [lra|exact: Hzero].
  move: Hin; cbn [q_lhs fst snd qexp_at psum_at]; rewrite !P; try lia.
  by have -> : Rplus (Rplus R0 (Rplus R0 R0)) (Rmult (Ropp R1) (Rplus R1 R1)) = Ropp 2 by lra.
have Hpk : (0 < size (packed c0))%N.
  by rewrite /packed /= size_cat -[size (List.repeat _ _)]/(List.length _) List.repeat_length; apply/ltP; rewrite -plusE; lia.
have [c' [k [out [y [EE [Hkk [_ [Hy [_ [_ Hsolve]]]]]]]]]] :=
  @C118_nlls cjvpn nat Nat.eqb Robust 2 fs eqs (diffS Nat.eqb) res h d c0 Pinv (Rinv 2) 5 false false 5 Hk Hnd Hc Hent Hnk Hsets Heq Hkey Hr (diffS_differentiates Hk Hn)
  Hpk ltac:(by []) ltac:(lra) ltac:(lra) ltac:(lia) ltac:(lia) Hbig.
exists c', k, out, y; split; first exact: EE.
split; first exact: Hkk.
split; first exact: Hy.
have Hfit e He := proj1 (Heq e He).
pose p (i : nat) := mpoly_at 2 ex_sol.
have Hgiv : givable cjvpn 2 fs p.
  have [_ [Hreach _]] := @C117_reached cjvpn nat Nat.eqb 2 fs eqs c0 p Hk Hn Hnk Hsets Hfit Hkey.
  have [|cp [_ Hp]] := Hreach (fun _ => ex_sol).
    have H3 f : [/\ CP <> FS, total_degree 2 2 ex_sol & meets_all (q_css (ex_fun f u)) (mpoly_at 2 ex_sol)] by split; [discriminate|exact: ex_degree|exact: ex_meets].
    by move=> [|[|i]] f; [move=> [<-]; exact: (H3 0%N)|move=> [<-]; exact: (H3 1%N)|case: i].
  by move=> i f Ef; have [a [_ [_ H]]] := Hp i f Ef; exists (fun j => List.nth j (a_data a) R0).
have P1 S i : pde ex_co (p i) S = R1.
  by have [|E1 _] := @ex_parts R1 R1 S (p i); [move=> T; rewrite /p ex_sol_at; lra|rewrite E1].
have Hsol : forall e, List.In e eqs -> solves_qeqn y e.
  apply: Hsolve; exists p; split=> // e [<-|[<-|[]]] S _; cbn [qexp_at psum_at q_lhs fst snd].
    by rewrite !P1; lra.
  by rewrite ex_minusE !P1; lra.
have Hform i f : List.nth_error fs i = Some f -> exists cc, forall X, y i X = Rplus (X 0%N) (Rmult cc (Rmult (X 0%N) (X 1%N))).
  move=> Ef; have [a [_ [_ Hxi]]] := Hy i f Ef.
  have Hfi := List.nth_error_In _ _ Ef; have Ez := surface_Zq Hsets Hfi Hxi.
  have [cc Ec] := ex_form Py _ u (fun j => List.nth j (a_data a) R0) Hu; exists cc => S; rewrite Ez -Ec.
  by case: Hfi => [<-|[<-|[]]].
have [a Ea] := Hform 0%N _ erefl; have [b Eb] := Hform 1%N _ erefl.
have V i cc : (forall S, y i S = Rplus (S 0%N) (Rmult cc (Rmult (S 0%N) (S 1%N)))) -> pde ex_co (y i) X = cc.
  by move=> E; have [|E1 _] := @ex_parts R1 cc X (y i); [move=> S; rewrite E; lra|rewrite E1].
have L1 := Hsol _ (or_introl erefl) X HinX; have L2 := Hsol _ (or_intror (or_introl erefl)) X HinX.
cbn [qexp_at psum_at q_lhs fst snd] in L1, L2; rewrite ex_minusE !(V 0%N a Ea) !(V 1%N b Eb) in L2; rewrite !(V 0%N a Ea) !(V 1%N b Eb) in L1.
have Ha : a = R1 by lra.
have Hb : b = R1 by lra.
by move=> S; rewrite Ea Eb Ha Hb; split; lra.
Qed.
