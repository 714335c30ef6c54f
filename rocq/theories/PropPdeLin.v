(** C118: systems of linear partial differential equations, solved with constrained expressions in
    several variables, a TFCDict and LS or NLLS. *)
From Coq Require Import ZArith Lia Reals Lra Sorting.Sorted.
From Coquelicot Require Import Coquelicot.
From mathcomp Require Import all_ssreflect all_algebra.
From Verif Require Import Base ModelDict SpecDict ProofDict ModelPe SpecPe ModelSolve ModelSolveDict SpecSolveDict ProofSolveDict
  ModelPinv SpecPinv ModelAffine SpecAffine ModelAffineDict SpecAffineDict ProofAffineDict ModelNllsDict SpecNllsDict ProofNllsDict PropNllsDict
  SpecNewton ProofNewton PropNewton SpecIdle ProofNewton5 PropIdle PropNllsNewton.
From Verif Require Import Numbers ModelBFPy SpecBasis ModelND SpecND ProofND2 ModelELM SpecELM ModelNELM SpecNELM ProofNELM2 ModelUtfc SpecUtfc ModelMtfc SpecMtfc ProofMtfc ProofMtfc3 SpecNColl PropNELM PropNColl ProofColl ProofRecover
  RealStruct SpecRecover PropRecover ModelOde SpecOde ProofOde PropOde PropOdeNl ModelPde SpecPde ProofPde ProofPde2 ProofPde3 PropPde ProofOdeNl2 ModelPdeNl SpecPdeNl ProofPdeNl ProofPdeNl2 PropPdeNl
  ModelOdeSys SpecOdeSys ProofOdeSys PropOdeSys ModelOdeSysNl SpecOdeSysNl ProofOdeSysNl PropOdeSysNl ModelOdeSysG SpecOdeSysG ProofOdeSysG PropOdeSysG
  PropAffineDict ModelPdeSys SpecPdeSys ProofPdeSys PropPdeSys SpecPdeLin.
Set Implicit Arguments.
Unset Strict Implicit.
Unset Printing Implicit Defensive.
Import GRing.Theory Num.Theory.
Local Open Scope ring_scope.

(** expressions without unknown functions do not depend on these *)
Lemma given_same e z z' X : given_qexp e -> qexp_at e z X = qexp_at e z' X.
Proof.
elim: e => [ts|g|a IHa b IHb|a IHa b IHb|f a IHa] //=.
- by case=> Ha Hb; rewrite IHa // IHb.
- by case=> Ha Hb; rewrite IHa // IHb.
- by move=> Ha; rewrite IHa.
Qed.
Lemma misfit_jobs eqs z : misfitQ eqs z = @sumsq R_realFieldType (List.map (fun q => qexp_at (q_lhs q.1) z q.2) (jobsQ eqs)).
Proof.
rewrite /misfitQ /jobsQ /sumsq; elim: eqs => [|e l IH]; first by rewrite /= big_nil.
cbn [List.fold_right List.flat_map]; rewrite List.map_app IH -[(_ ++ _)%list]/(_ ++ _) big_cat; congr Rplus.
rewrite List.map_map /misfit_points; elim: (q_pts e) => [|X Xs IHx]; first by rewrite /= big_nil.
by cbn [List.fold_right List.map]; rewrite big_cons IHx expr2.
Qed.
Lemma misfit_points_ge0 e z Xs : Rle 0 (misfit_points e z Xs).
Proof. by rewrite /misfit_points; elim: Xs => [|X Xs IH]; cbn [List.fold_right]; [exact: Rle_refl|apply: Rplus_le_le_0_compat; [exact: Rle_0_sqr|exact: IH]]. Qed.
Lemma misfitQ_ge0 eqs z : Rle 0 (misfitQ eqs z).
Proof. by rewrite /misfitQ; elim: eqs => [|e l IH]; cbn [List.fold_right]; [exact: Rle_refl|apply: Rplus_le_le_0_compat; [exact: misfit_points_ge0|exact: IH]]. Qed.
Lemma misfit_points_0 e z Xs : (forall X, List.In X Xs -> qexp_at e z X = R0) <-> misfit_points e z Xs = R0.
Proof.
elim: Xs => [|X Xs [IH1 IH2]]; first by split.
have H0 := misfit_points_ge0 e z Xs; have H1 := Rle_0_sqr (qexp_at e z X).
have E : misfit_points e z (X :: Xs) = Rplus (Rsqr (qexp_at e z X)) (misfit_points e z Xs) by [].
rewrite E; split=> H.
  rewrite (H X (or_introl erefl)) IH1; last by move=> S HS; apply: H; right.
  by rewrite Rsqr_0 Rplus_0_l.
have E1 : Rsqr (qexp_at e z X) = R0 by lra.
have E2 : misfit_points e z Xs = R0 by lra.
by move=> S [<-|HS]; [exact: Rsqr_0_uniq|exact: IH2].
Qed.
Lemma misfitQ_0 eqs z : (forall e, List.In e eqs -> solves_qeqn z e) <-> misfitQ eqs z = R0.
Proof.
elim: eqs => [|e l [IH1 IH2]]; first by split.
have H0 := misfit_points_ge0 (q_lhs e) z (q_pts e); have H1 := misfitQ_ge0 l z.
have E : misfitQ (e :: l) z = Rplus (misfit_points (q_lhs e) z (q_pts e)) (misfitQ l z) by [].
rewrite E; split=> H.
  rewrite IH1; last by move=> e' He; apply: H; right.
  by have /misfit_points_0 -> := H e (or_introl erefl); rewrite Rplus_0_l.
have E1 : misfit_points (q_lhs e) z (q_pts e) = R0 by lra.
have E2 : misfitQ l z = R0 by lra.
by move=> e' [<-|He]; [apply/misfit_points_0|exact: IH2].
Qed.

Section Lin.
Variables (jvpn : (seq R -> R) -> seq R -> seq R -> R) (K : Type) (keq : K -> K -> bool) (dim : nat) (fs : seq (qfun (K:=K))) (eqs : seq qeqn).
Variables (cp : seq (K * @arr R)).
Local Notation view := (seq (K * @arr R)).
Hypotheses (Hk : keq_ok keq) (Hn : List.NoDup (List.map fst cp)) (Hnk : List.NoDup (List.map q_key fs)).
Hypothesis Hset : forall f, List.In f fs -> qsetting jvpn dim f.
Hypothesis Hfit : forall e, List.In e eqs -> fit_qexp (List.length fs) dim (q_lhs e).
Hypothesis Hlin : forall e, List.In e eqs -> linear_qexp (q_lhs e).
Hypothesis Hkey : forall f, List.In f fs -> exists a, v_get keq cp (q_key f) = Some a /\ a_shape a = [:: mtfc_num (q_u f) false].
Local Notation Y := (Yq keq dim fs).

Lemma lin_aff e X : linear_qexp e -> fit_qexp (List.length fs) dim e -> exists M b, forall c, same_form cp c -> qexp_at e (Y c) X = Rplus (dotv M c) b.
Proof.
pose z0 : nat -> pt -> R := fun _ _ => R0.
have Hgiv a : given_qexp a -> exists M b, forall c, same_form cp c -> qexp_at a (Y c) X = Rplus (dotv M c) b.
  move=> Ha; exists (fun _ _ => R0), (qexp_at a z0 X) => c _.
  by rewrite dotv_zero // (given_same (Y c) z0 X Ha) Rplus_0_l.
elim: e => [ts|g|a IHa b IHb|a IHa b IHb|f a IHa] Hl Hf.
- exact: (psum_aff Hk Hn Hset Hkey X Hf).
- exact: (Hgiv (QCoef g)).
- case: Hl Hf => La Lb [Fa Fb]; have [M [x HM]] := IHa La Fa; have [M' [x' HM']] := IHb Lb Fb.
  exists (fun k j => Rplus (M k j) (M' k j)), (Rplus x x') => c Fc.
  by rewrite dotv_add; cbn [qexp_at]; rewrite (HM c Fc) (HM' c Fc); lra.
- case: Hf => Fa Fb; case: Hl => -[La Lb].
    have [M [x HM]] := IHb Lb Fb; exists (fun k j => Rmult (qexp_at a z0 X) (M k j)), (Rmult (qexp_at a z0 X) x) => c Fc.
    by rewrite dotv_mul; cbn [qexp_at]; rewrite (HM c Fc) (given_same (Y c) z0 X La); lra.
  have [M [x HM]] := IHa La Fa; exists (fun k j => Rmult (qexp_at b z0 X) (M k j)), (Rmult (qexp_at b z0 X) x) => c Fc.
  by rewrite dotv_mul; cbn [qexp_at]; rewrite (HM c Fc) (given_same (Y c) z0 X Lb); lra.
- exact: (Hgiv (QApp f a)).
Qed.
Lemma rows_aff (js : seq (qeqn * pt)) : (forall q, List.In q js -> List.In q.1 eqs) ->
  exists rows, forall c, same_form cp c -> List.map (fun q => qexp_at (q_lhs q.1) (Y c) q.2) js = List.map (fun r => Rplus (dotv (fst r) c) (snd r)) rows.
Proof.
elim: js => [|q js IH] H; first by exists [::].
have [|rows Hr] := IH; first by move=> q' Hq; apply: H; right.
have He := H q (or_introl erefl); have [M [b Hb]] := lin_aff q.2 (Hlin He) (Hfit He).
by exists ((M, b) :: rows) => c Fc; cbn [List.map fst snd]; rewrite (Hb c Fc) (Hr c Fc).
Qed.
Lemma lin_affine jacfwd res : (forall c, same_form cp c -> residualQ jvpn keq dim c fs eqs (res c)) -> differentiatesS jacfwd cp ->
  exists m M b, @affine_on R_realFieldType K jacfwd res cp m M b.
Proof.
move=> Hr Hj; have [|rows Hrow] := @rows_aff (jobsQ eqs); first by move=> [e X] /in_jobsQ [].
pose d : (K -> nat -> R) * R := (fun _ _ => R0, R0).
pose M := fun r => fst (List.nth r rows d); pose b := fun r => snd (List.nth r rows d).
have Ha c' : same_form cp c' -> res c' = @affine_res R_realFieldType K (List.length rows) M b c'.
  move=> Hc; rewrite (residualQ_is Hset Hfit (Hr c' Hc)) (Hrow c' Hc) affine_dotv.
  apply: (List.nth_ext _ _ R0 R0); rewrite !List.map_length ?List.seq_length // => i Hi.
  rewrite (List.nth_indep _ R0 (Rplus (dotv (fst d) c') (snd d))) ?List.map_length // (List.map_nth (fun r => Rplus (dotv (fst r) c') (snd r))).
  rewrite (List.nth_indep (List.map _ (List.seq _ _)) R0 (Rplus (dotv (M 0%N) c') (b 0%N))) ?List.map_length ?List.seq_length //.
  by rewrite (List.map_nth (fun r => Rplus (dotv (M r) c') (b r))) List.seq_nth.
by exists (List.length rows), M, b => c' Hc; split; [exact: Ha|exact: (Hj res _ M b Ha c' Hc)].
Qed.
Lemma lin_best res c' : (forall c, same_form cp c -> residualQ jvpn keq dim c fs eqs (res c)) -> same_form cp c' ->
  @SpecAffineDict.best R_realFieldType K res c' ->
  (forall p, givable jvpn dim fs p -> Rle (misfitQ eqs (Y c')) (misfitQ eqs p)) /\
  ((exists p, givable jvpn dim fs p /\ forall e, List.In e eqs -> solves_qeqn p e) -> forall e, List.In e eqs -> solves_qeqn (Y c') e).
Proof.
move=> Hr Hc Hb.
have Hres c1 : same_form cp c1 -> @sumsq R_realFieldType (res c1) = misfitQ eqs (Y c1).
  by move=> H1; rewrite (residualQ_is Hset Hfit (Hr c1 H1)) misfit_jobs.
have Hbest p : givable jvpn dim fs p -> Rle (misfitQ eqs (Y c')) (misfitQ eqs p).
  move=> Hp; have [Hreach _] := @C117_reached jvpn K keq dim fs eqs cp p Hk Hn Hnk Hset Hfit Hkey.
  have [c1 [H1 Hs]] := Hreach Hp; have Ep := surf_lt Hset Hs.
  have -> : misfitQ eqs p = misfitQ eqs (Y c1).
    rewrite !misfit_jobs; congr sumsq; apply: List.map_ext_in => -[e X] /in_jobsQ [He _]; exact: (qexp_same X (Hfit He) Ep).
  rewrite -!Hres //; apply/RlebP; apply: Hb.
  by case: Hc H1 => [A1 [A2 A3]] [B1 [B2 B3]]; split; [rewrite B1|split=> //; rewrite B2].
split=> // -[p [Hp /misfitQ_0 H0]]; apply/misfitQ_0.
by have := Hbest p Hp; have := misfitQ_ge0 eqs (Y c'); rewrite H0; lra.
Qed.
Lemma lin_meets c : forall i f, List.nth_error fs i = Some f -> meets_all (q_css f) (Y c i).
Proof. by move=> i f Ef; rewrite /Yq Ef; exact: (Zq_meets Hset _ (List.nth_error_In _ _ Ef)). Qed.
End Lin.

(** ** C118 *)
(** LS on the TFCDict of the coefficients gives functions that meet all conditions at all points and, of
    all functions the expressions can give, fit the equations best at their points; if some functions
    the expressions can give solve the equations there, so do these. *)
Theorem C118_ls : forall jvpn (K : Type) (keq : K -> K -> bool) dim fs eqs jacfwd res h (d : @tdict R K) c,
  keq_ok keq -> fresh d_refresh h d -> contents h d = Some c -> c <> [::] -> List.Forall (fun p => is1d (snd p)) c ->
  List.NoDup (List.map q_key fs) -> (forall f, List.In f fs -> qsetting jvpn dim f) ->
  (forall e, List.In e eqs -> fit_qexp (List.length fs) dim (q_lhs e) /\ linear_qexp (q_lhs e)) ->
  (forall f, List.In f fs -> exists a, v_get keq c (q_key f) = Some a /\ a_shape a = [:: mtfc_num (q_u f) false]) ->
  (forall c', same_form c c' -> residualQ jvpn keq dim c' fs eqs (res c')) -> differentiatesS jacfwd c ->
  exists h' d' c' y, LS_dict keq R0 Rplus Ropp (@l_solve R_realFieldType) jacfwd Plain h d res = Some (h', d') /\
    contents h' d' = Some c' /\ same_form c c' /\ contents h' d = Some c /\
    surfacesQ jvpn keq dim c' fs y /\ (forall i f, List.nth_error fs i = Some f -> meets_all (q_css f) (y i)) /\
    (forall p, givable jvpn dim fs p -> Rle (misfitQ eqs y) (misfitQ eqs p)) /\
    ((exists p, givable jvpn dim fs p /\ forall e, List.In e eqs -> solves_qeqn p e) -> forall e, List.In e eqs -> solves_qeqn y e).
Proof.
move=> jvpn K keq dim fs eqs jacfwd res h d c Hk Hf Hc Hne H1 Hnk Hset Heq Hkey Hr Hj.
have Hn : List.NoDup (List.map fst c) by have [_ <-] := contents_ld _ _ _ Hc; exact: (fresh_keys _ _ _ Hf).
have Hfit e He := proj1 (Heq e He); have Hlin e He := proj2 (Heq e He).
have [m [M [b Ha]]] := lin_affine Hk Hn Hset Hfit Hlin Hkey Hr Hj.
have [h' [d' [c' [EE [Cc [Fc [Hb Cd]]]]]]] := @C39_ls_partial R_realFieldType K keq jacfwd res h d c m M b Hk Hf Hc Hne H1 Ha.
have [B1 B2] := lin_best Hk Hn Hnk Hset Hfit Hkey Hr Fc Hb.
exists h', d', c', (Yq keq dim fs c'); split; first exact: EE.
split; first exact: Cc.
split; first exact: Fc.
split; first exact: Cd.
split; first exact: (surf_ex Hset Hkey Fc).
split; first exact: (lin_meets keq Hset c').
by split; [exact: B1|exact: B2].
Qed.
Print Assumptions C118_ls.

(** One iteration of NLLS, from any coefficients, gives as good a fit. *)
Theorem C118_nlls_step : forall jvpn (K : Type) (keq : K -> K -> bool) dim fs eqs jacfwd res h (d : @tdict R K) c,
  keq_ok keq -> fresh d_refresh h d -> contents h d = Some c -> c <> [::] -> List.Forall (fun p => is1d (snd p)) c ->
  List.NoDup (List.map q_key fs) -> (forall f, List.In f fs -> qsetting jvpn dim f) ->
  (forall e, List.In e eqs -> fit_qexp (List.length fs) dim (q_lhs e) /\ linear_qexp (q_lhs e)) ->
  (forall f, List.In f fs -> exists a, v_get keq c (q_key f) = Some a /\ a_shape a = [:: mtfc_num (q_u f) false]) ->
  (forall c', same_form c c' -> residualQ jvpn keq dim c' fs eqs (res c')) -> differentiatesS jacfwd c ->
  exists d' c' dxi y, NLLS_step keq Rminus (@l_solve R_realFieldType) jacfwd Plain h d res = Some (h, d', dxi) /\
    contents h d' = Some c' /\ same_form c c' /\
    surfacesQ jvpn keq dim c' fs y /\ (forall i f, List.nth_error fs i = Some f -> meets_all (q_css f) (y i)) /\
    (forall p, givable jvpn dim fs p -> Rle (misfitQ eqs y) (misfitQ eqs p)) /\
    ((exists p, givable jvpn dim fs p /\ forall e, List.In e eqs -> solves_qeqn p e) -> forall e, List.In e eqs -> solves_qeqn y e).
Proof.
move=> jvpn K keq dim fs eqs jacfwd res h d c Hk Hf Hc Hne H1 Hnk Hset Heq Hkey Hr Hj.
have Hn : List.NoDup (List.map fst c) by have [_ <-] := contents_ld _ _ _ Hc; exact: (fresh_keys _ _ _ Hf).
have Hfit e He := proj1 (Heq e He); have Hlin e He := proj2 (Heq e He).
have [m [M [b Ha]]] := lin_affine Hk Hn Hset Hfit Hlin Hkey Hr Hj.
have [d' [c' [dxi [EE [Cc [Fc [Hb _]]]]]]] := @C39_nlls_step_partial R_realFieldType K keq Plain jacfwd res h d c m M b Hk Hc Hne Ha (conj Hf H1).
have [B1 B2] := lin_best Hk Hn Hnk Hset Hfit Hkey Hr Fc Hb.
exists d', c', dxi, (Yq keq dim fs c'); split; first exact: EE.
split; first exact: Cc.
split; first exact: Fc.
split; first exact: (surf_ex Hset Hkey Fc).
split; first exact: (lin_meets keq Hset c').
by split; [exact: B1|exact: B2].
Qed.
Print Assumptions C118_nlls_step.

(** z_xy + w_xy = 2 and w_xy = z_xy with z = w = 0 where x = 0 and z = w = x where y = 0, nine points, degree 2:
    LS from zeros gives z = w = x + x y everywhere. *)
Definition exl_eqs (Xs : seq pt) : seq qeqn :=
  [:: QEqn Xs (QAdd (QLin [:: (0%N, ex_co); (1%N, ex_co)]) (QMul (QCoef (fun _ => Ropp R1)) (QAdd (QCoef (fun _ => R1)) (QCoef (fun _ => R1)))));
      QEqn Xs (QLin [:: (1%N, ex_co); (0%N, ex_minus)])].
Example C118_case : exists u (d d' : @tdict R nat) h' c' y res,
  let fs := [:: ex_fun 0 u; ex_fun 1 u] in
  let eqs := exl_eqs (List.map (point_of (m_x u)) (List.seq 0 (m_N u))) in
  let N := mtfc_num u false in
  [/\ mkm Py (MB CP) [:: 3; 3]%N (MList [:: EInt (Zpos xH); EInt (Zpos xH)]) 2 2 [:: R0; R0] [:: R1; R1] [::] [::] = Some u,
      d_new Nat.eqb [::] [:: (0%N, Jax (Arr_ [:: N] (List.repeat R0 N))); (1%N, Jax (Arr_ [:: N] (List.repeat R0 N)))] = Some d,
      forall c, contents [::] d = Some c -> forall c'', same_form c c'' -> residualQ cjvpn Nat.eqb 2 c'' fs eqs (res c''),
      LS_dict Nat.eqb R0 Rplus Ropp (@l_solve R_realFieldType) (diffS Nat.eqb) Plain [::] d res = Some (h', d') &
      contents h' d' = Some c' /\ surfacesQ cjvpn Nat.eqb 2 c' fs y /\
      forall X, y 0%N X = Rplus (X 0%N) (Rmult (X 0%N) (X 1%N)) /\ y 1%N X = Rplus (X 0%N) (Rmult (X 0%N) (X 1%N))].
Proof.
have [u [Hu Hset]] := ex_setting; have [Ho _] := ex_orders.
pose fs := [:: ex_fun 0 u; ex_fun 1 u]; pose Xs := List.map (point_of (m_x u)) (List.seq 0 (m_N u)); pose eqs := exl_eqs Xs.
have Hk : keq_ok Nat.eqb by move=> x y; exact: Nat.eqb_eq.
pose N := mtfc_num u false.
pose c0 : seq (nat * @arr R) := [:: (0%N, Arr_ [:: N] (List.repeat R0 N)); (1%N, Arr_ [:: N] (List.repeat R0 N))].
pose its := [:: (0%N, Jax (Arr_ [:: N] (List.repeat R0 N))); (1%N, Jax (Arr_ [:: N] (List.repeat R0 N)))] : seq (nat * @val R).
have [d Hd] : exists d, d_new Nat.eqb [::] its = Some d by eexists; reflexivity.
have Hc : contents [::] d = Some c0 by move: Hd => [<-].
have Hf : fresh d_refresh [::] d.
  move: Hd => [<-]; split; last by [].
  by rewrite /=; repeat constructor => /=; intuition discriminate.
have Hn : List.NoDup (List.map fst c0) by rewrite /=; repeat constructor => /=; intuition discriminate.
have Hnk : List.NoDup (List.map q_key fs) by rewrite /=; repeat constructor => /=; intuition discriminate.
have Hsets f : List.In f fs -> qsetting cjvpn 2 f by move=> [<-|[<-|[]]].
have Hom : orders_fit 2 ex_minus by move=> g e [[_ <-]|[]] /=; lia.
have Heq e : List.In e eqs -> fit_qexp (List.length fs) 2 (q_lhs e) /\ linear_qexp (q_lhs e).
  move=> [<-|[<-|[]]] /=.
    split; last by split; [exact: I|left; split; [exact: I|split; exact: I]].
    split; last by split; [exact: I|split; exact: I].
    by move=> t [<-|[<-|[]]] /=; (split; [lia|exact: Ho]).
  split; last exact: I.
  by move=> t [<-|[<-|[]]] /=; split; [lia|exact: Ho|lia|exact: Hom].
have Hkey f : List.In f fs -> exists a, v_get Nat.eqb c0 (q_key f) = Some a /\ a_shape a = [:: mtfc_num (q_u f) false].
  by move=> [<-|[<-|[]]]; eexists; split; reflexivity.
have H1 : List.Forall (fun p => is1d (snd p)) c0.
  by constructor; [|constructor; [|constructor]]; rewrite /is1d /= List.repeat_length.
have Hne : c0 <> [::] by discriminate.
pose res c' := List.map (fun q => qexp_at (q_lhs q.1) (Yq Nat.eqb 2 fs c') q.2) (jobsQ eqs).
have Hr c' : same_form c0 c' -> residualQ cjvpn Nat.eqb 2 c' fs eqs (res c') by move=> Fc; exact: (residualQ_ex eqs Hsets Hkey Fc).
have [h' [d' [c' [y [EE [Cc [_ [_ [Hy [_ [_ Hsolve]]]]]]]]]]] :=
  @C118_ls cjvpn nat Nat.eqb 2 fs eqs (diffS Nat.eqb) res [::] d c0 Hk Hf Hc Hne H1 Hnk Hsets Heq Hkey Hr (diffS_differentiates Hk Hn).
exists u, d, d', h', c', y, res; split; [exact: Hu|exact: Hd| |exact: EE|].
  by move=> c; rewrite Hc => -[<-]; exact: Hr.
split; first exact: Cc.
split; first exact: Hy.
have Hfit e He := proj1 (Heq e He).
pose p (i : nat) := mpoly_at 2 ex_sol.
have Hgiv : givable cjvpn 2 fs p.
  have [_ [Hreach _]] := @C117_reached cjvpn nat Nat.eqb 2 fs eqs c0 p Hk Hn Hnk Hsets Hfit Hkey.
  have [|cp [_ Hp]] := Hreach (fun _ => ex_sol).
    have H3 f : [/\ CP <> FS, total_degree 2 2 ex_sol & meets_all (q_css (ex_fun f u)) (mpoly_at 2 ex_sol)] by split; [discriminate|exact: ex_degree|exact: ex_meets].
    by move=> [|[|i]] f; [move=> [<-]; exact: (H3 0%N)|move=> [<-]; exact: (H3 1%N)|case: i].
  by move=> i f Ef; have [a [_ [_ H]]] := Hp i f Ef; exists (fun j => List.nth j (a_data a) R0).
have P1 X i : pde ex_co (p i) X = R1.
  by have [|E1 _] := @ex_parts R1 R1 X (p i); [move=> S; rewrite /p ex_sol_at; lra|rewrite E1].
have Hsol : forall e, List.In e eqs -> solves_qeqn y e.
  apply: Hsolve; exists p; split=> // e [<-|[<-|[]]] X _; cbn [qexp_at psum_at q_lhs fst snd].
    by rewrite !P1; lra.
  by rewrite ex_minusE !P1; lra.
have Hform i f : List.nth_error fs i = Some f -> exists cc, forall X, y i X = Rplus (X 0%N) (Rmult cc (Rmult (X 0%N) (X 1%N))).
  move=> Ef; have [a [_ [_ Hxi]]] := Hy i f Ef.
  have Hfi := List.nth_error_In _ _ Ef; have Ez := surface_Zq Hsets Hfi Hxi.
  have [cc Ec] := ex_form Py _ u (fun j => List.nth j (a_data a) R0) Hu; exists cc => X; rewrite Ez -Ec.
  by case: Hfi => [<-|[<-|[]]].
have [a Ea] := Hform 0%N _ erefl; have [b Eb] := Hform 1%N _ erefl.
have [H0 _] := ex_origin Py u Hu.
pose X := point_of (m_x u) 0.
have HinX : List.In X Xs by apply: List.in_map; apply/List.in_seq; lia.
have V i cc : (forall S, y i S = Rplus (S 0%N) (Rmult cc (Rmult (S 0%N) (S 1%N)))) -> pde ex_co (y i) X = cc.
  by move=> E; have [|E1 _] := @ex_parts R1 cc X (y i); [move=> S; rewrite E; lra|rewrite E1].
have L1 := Hsol _ (or_introl erefl) X HinX; have L2 := Hsol _ (or_intror (or_introl erefl)) X HinX.
cbn [qexp_at psum_at q_lhs fst snd] in L1, L2; rewrite ex_minusE !(V 0%N a Ea) !(V 1%N b Eb) in L2; rewrite !(V 0%N a Ea) !(V 1%N b Eb) in L1.
have Ha : a = R1 by lra.
have Hb : b = R1 by lra.
by move=> S; rewrite Ea Eb Ha Hb; split; lra.
Qed.
