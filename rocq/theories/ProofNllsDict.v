From Coq Require List.
From Coq Require Import ZArith Lia.
From mathcomp Require Import all_ssreflect all_algebra.
From Verif Require Import Base ModelDict SpecDict ProofDict ProofDict2 ProofDict3 ModelPe SpecPe ProofPe ModelSolve ModelSolveDict SpecSolveDict ProofSolveDict
  ModelPinv ModelAffine SpecAffine ModelAffineDict ProofAffineDict ModelNllsDict SpecNllsDict ProofSolveSim.
Set Implicit Arguments.
Unset Strict Implicit.
Unset Printing Implicit Defensive.
Import GRing.Theory Num.Theory.
Local Open Scope ring_scope.

Section Proofs.
Variables (F : realFieldType) (K Ar : Type) (keq : K -> K -> bool) (Hk : keq_ok keq) (cl : class) (m : nat).
Notation view := (seq (K * @arr F)).

(** ** The operations of the class on jax arrays *)
Lemma rebuild_ok (c : view) : List.NoDup (List.map fst c) -> entries_ok cl c ->
  exists d, rebuild keq cl c = Some d /\ contents [::] d = Some c /\
    match cl with Plain => fresh d_refresh [::] d | Robust => fresh r_refresh [::] d /\ List.forallb is_jax (List.map snd (td_items d)) = true end.
Proof.
move=> Hn [Hc He].
have E0 (l : view) : contents_of [::] (List.map (fun p => (fst p, Jax (snd p))) l) = Some l.
  by elim: l => [|[k a] l IH] //=; rewrite /contents_of /= in IH *; rewrite IH.
have Hn' : List.NoDup (List.map fst (List.map (fun p : K * @arr F => (fst p, Jax (snd p))) c)).
  by rewrite List.map_map.
rewrite /rebuild; case: cl He => He /=.
  have Er := d_refresh_1d _ _ _ (E0 c) He.
  eexists; split; first by rewrite /d_new (od_init keq Hk) //; exact: Er.
  by split; [exact: E0|split; [exact: Hn'|exact: Er]].
have [s Er] := r_refresh_total [::] (List.map (fun p : K * @arr F => (fst p, Jax (snd p))) c).
eexists; split; first by rewrite /r_new (od_init keq Hk) //; exact: Er.
split; first exact: E0.
split; first by split; [exact: Hn'|exact: Er].
by rewrite /= List.map_map; apply/List.forallb_forall => x /List.in_map_iff [p [<- _]].
Qed.
Lemma form_ok (c c' : view) : same_form c c' -> entries_ok cl c -> entries_ok cl c'.
Proof.
move=> Hf [Hc He]; split.
  by move=> E; case: Hf => [Ef _]; rewrite E /= in Ef; case: c Ef Hc He => //= ? ? Ef.
case: cl He => He; first exact: (form_1d _ _ Hf He).
case: Hf => [_ [E W]].
elim: c' c E W He {Hc} => [|[k a] c' IH] [|[k0 a0] c] //= [E1 E2] W He; constructor.
- move: (List.Forall_inv W) (List.Forall_inv He) => /= Wa [_ Hs]; split=> //; by rewrite E1.
- by apply: (IH c) => //; [apply: (List.Forall_inv_tail W)|apply: (List.Forall_inv_tail He)].
Qed.
Lemma ok_wf (c : view) : entries_ok cl c -> List.Forall (fun p => wf (snd p)) c.
Proof.
by case=> _; case: cl => H; [apply: List.Forall_impl H => p; apply: is1d_wf|apply: List.Forall_impl H => p []].
Qed.
Lemma packE n (c : view) : size (packed c) = n -> to_mx n 1 (packed c) = pack n c.
Proof. by move=> Hs; apply/matrixP=> i j; rewrite !mxE muln1 !ord1 addn0. Qed.
Lemma sub_ok n (c : view) (dxi : 'cV[F]_n) : List.NoDup (List.map fst c) -> entries_ok cl c -> size (packed c) = n ->
  exists c', @d_sub F K Ar keq cl (fun x y => x - y) (DUnk c) (Some (of_col dxi)) = Some (DUnk c') /\
    same_form c c' /\ pack n c' = pack n c - dxi.
Proof.
move=> Hn He Hs; have [d [E [C Fr]]] := rebuild_ok Hn He.
have Hl : List.length (a_data (flat (of_col dxi))) = List.length (packed c) by rewrite /= !sizeE size_of_col Hs.
have [r [c' [Ei [Cc [Fc P]]]]] : exists r c', c_iop keq cl (fun x y => x - y) [::] d (OJax (flat (of_col dxi))) = ([::], r, Done) /\
    contents [::] r = Some c' /\ same_form c c' /\ packed c' = zip2 (fun x y => x - y) (packed c) (of_col dxi).
  have W := ok_wf He; case: He => Hc; move: Fr; rewrite /c_iop; case: (cl) => Fr He.
    have [r [E1 [_ [c' [Cc [K1 [S1 [W1 P]]]]]]]] := c31_array keq Hk (fun x y => x - y) [::] d c (flat (of_col dxi)) Fr C He Hl.
    by exists r, c'; do 3 (split=> //).
  case: Fr => Fr Hj.
  have [r [E1 [_ [c' [Cc [K1 [S1 [W1 P]]]]]]]] := c31_robust_array keq Hk (fun x y => x - y) [::] d c (flat (of_col dxi)) Fr Hj C W Hl.
  by exists r, c'; do 3 (split=> //).
exists c'; split; first by rewrite /d_sub /= E /= Ei Cc.
split=> //.
have Hs' : size (packed c') = n by rewrite -!sizeE (form_len _ _ Fc (ok_wf He)).
rewrite -(packE Hs') P -/(vec n _) zip2_sub ?size_of_col // /vec of_colK packE //.
Qed.
Lemma derivativesE (D : nat -> K -> nat -> F) (c : view) r : derivatives D c r = jrow D c r.
Proof. by elim: c => [|p c IH] //=; rewrite /derivatives /jrow /= -/(jrow D c r) -IH mapE seqE. Qed.
Lemma jmxE n (D : nat -> K -> nat -> F) (c : view) : size (packed c) = n ->
  to_mx m n (List.flat_map (jrow D c) (List.seq 0 m)) = \matrix_(i, j) nth 0 (derivatives D c i) j.
Proof.
move=> <-; apply/matrixP=> i j; rewrite [RHS]mxE derivativesE.
exact: (AmxE D i j).
Qed.

Lemma maxabsE (k : nat) (l : seq F) : size l = k ->
  foldr Order.max 0 [seq `|x| | x <- l] = v_maxabs (\col_(i < k) nth 0 l i).
Proof.
move=> Hl; rewrite /v_maxabs; congr foldr.
apply: (@eq_from_nth _ 0) => [|i]; first by rewrite !size_map Hl -enumT size_enum_ord.
rewrite size_map Hl => Hi; rewrite (nth_map 0) ?Hl // (nth_map (Ordinal Hi)) ?size_enum_ord // mxE.
by rewrite nth_enum_ord.
Qed.

Variables (jacfwd : (view -> seq F) -> view -> view) (n : nat).
Notation dv := (dvalue F K Ar). Notation vv := (value F Ar n).
Variables (jac : (seq vv -> 'cV[F]_m) -> seq vv -> 'M[F]_(m, n)).
Variables (c : view) (args : seq Ar) (res : seq dv -> seq F) (vres : seq vv -> 'cV[F]_m)
  (J : option (seq dv -> option (@arr F))) (vJ : option (seq vv -> 'M[F]_(m, n))).
Hypotheses (Hnd : List.NoDup (List.map fst c)) (Hok : entries_ok cl c) (Hsz : size (packed c) = n).
Hypothesis Hr : same_residual c args res vres.
Hypothesis HJ : same_jacobian jacfwd jac c args res vres J vJ.

Notation maxl := (@l_maxabs F).
Definition RUd (u : dv) (v : vv) : Prop := exists c', u = DUnk c' /\ same_form c c' /\ v = Unk (pack n c').
Notation sl := (d_solve (@l_solve F)).
Notation dj := (d_jac keq cl jacfwd).

Lemma form_size c' : same_form c c' -> size (packed c') = n.
Proof. by move=> Hf; rewrite -!sizeE (form_len _ _ Hf (ok_wf Hok)). Qed.
Lemma res_rel u v : RUd u v ->
  maxl (res (u :: dargs args)) = v_maxabs (vres (v :: vargs args)).
Proof. by move=> [c' [-> [Hf ->]]]; have [Hs ->] := Hr Hf; rewrite /l_maxabs (maxabsE Hs). Qed.
Lemma ls_rel u v : RUd u v ->
  exists y1 y2, d_sub keq cl (fun x y => x - y) u (nlls_closure dj res J sl (u :: dargs args)) = Some y1 /\
    v_sub v (nlls_closure jac vres vJ (@v_pinv_dot F m n) (v :: vargs args)) = Some y2 /\ RUd y1 y2 /\
    d_maxabs maxl (nlls_closure dj res J sl (u :: dargs args))
    = v_maxabs (nlls_closure jac vres vJ (@v_pinv_dot F m n) (v :: vargs args)).
Proof.
move=> [c' [-> [Hf ->]]]; have Hs' := form_size Hf.
have He' := form_ok Hf Hok.
have Hnd' : List.NoDup (List.map fst c') by case: Hf => [-> _].
have [l [EJ EvJ]] : exists l, (if J is Some j then j else dj res) (DUnk c' :: dargs args) = Some (Arr_ [:: m; n] l) /\
    (if vJ is Some j then j else jac vres) (Unk (pack n c') :: vargs args) = to_mx m n l.
  move: (HJ Hf); case: (J) => [f|]; case: (vJ) => [g|] //.
  move=> [D [E1 E2]]; exists (List.flat_map (jrow D c') (List.seq 0 m)); split.
      rewrite /d_jac (c_J_ok keq Hk cl m D c' _ Hnd') //.
      + by rewrite sizeE Hs'.
      + by case: He'.
      + by case: He'.
    by rewrite E2 (jmxE _ Hs').
set dxi := pinv (to_mx m n l) *m vres (Unk (pack n c') :: vargs args).
have E1 : nlls_closure dj res J sl (DUnk c' :: dargs args) = Some (of_col dxi).
  rewrite /nlls_closure /d_solve EJ /= /l_solve /=; congr (Some (of_col (_ *m _))).
  by have [_ ->] := Hr Hf; apply/matrixP=> i j; rewrite !mxE muln1 ord1 addn0.
have E2 : nlls_closure jac vres vJ (@v_pinv_dot F m n) (Unk (pack n c') :: vargs args) = dxi.
  by rewrite /nlls_closure EvJ.
rewrite E1 E2.
have [c1 [Es [F1 P]]] := sub_ok dxi Hnd' He' Hs'.
exists (DUnk c1), (Unk (pack n c1)); split=> //.
split; first by rewrite /v_sub /v_subt P.
split.
  exists c1; split=> //; split=> //.
  case: Hf F1 => [H1 [H2 _]] [H3 [H4 H5]]; split; first by rewrite H3.
  by split=> //; rewrite H4.
rewrite /d_maxabs /l_maxabs (@maxabsE n) ?size_of_col //; congr v_maxabs.
by rewrite -[RHS](of_colK dxi); apply/matrixP=> i j; rewrite !mxE muln1 ord1 addn0.
Qed.
Lemma ones_rel u v : RUd u v -> d_maxabs maxl (d_ones 1 u) = v_maxabs (v_ones v).
Proof.
move=> [c' [-> [Hf ->]]]; rewrite /d_ones /d_maxabs /l_maxabs sizeE (form_size Hf) (@maxabsE n).
  congr v_maxabs; apply/matrixP=> i j; rewrite !mxE.
  have H (k k' : nat) : (k < k')%N -> nth 0 (List.repeat (1 : F) k') k = 1 by elim: k' k => [|k' IH] [|k] //= Hk0; apply: IH.
  exact: H.
by rewrite -sizeE List.repeat_length.
Qed.
Lemma out_rel o v : RO RUd o v -> same_outcome c o v.
Proof.
case: o v => [[u it out]||] [[v it' out']||] //= [[c' [-> [Hf ->]]] [-> ->]].
by split.
Qed.
Lemma nlls_rel fuel consts s tol maxIter timer printOut :
  ascending consts -> List.Forall (fun k => Peano.le 1 k /\ Peano.le k (length args)) consts -> List.Forall (fun p => wf (snd p)) c ->
  let o := NLLS sl sl (d_sub keq cl (fun x y => x - y)) (d_ones 1) maxl (d_maxabs maxl) (@v_gt F) dj fuel (DUnk c) res (dargs args) consts J None None tol maxIter s timer printOut in
  let v := vNLLS jac fuel (Unk (pack n c)) vres (vargs args) consts vJ None None tol maxIter s timer printOut in
  same_outcome c (fst o) (fst v) /\ snd o = snd v.
Proof.
move=> Ha Hb Wc o v; rewrite /o /v /vNLLS /NLLS.
have L1 : length (dargs args : seq dv) = length args by rewrite /dargs sizeE size_map.
have L2 : length (vargs args : seq vv) = length args by rewrite /vargs sizeE size_map.
have Hb1 := Hb; rewrite -L1 in Hb1; have Hb2 := Hb; rewrite -L2 in Hb2.
have R0 : RUd (DUnk c) (Unk (pack n c)) by exists c; split=> //; split=> //; exact: form_self.
have Es : (solve_fun sl sl s = Some sl /\ solve_fun (@v_pinv_dot F m n) (@v_pinv_dot F m n) s = Some (@v_pinv_dot F m n)) \/
   (solve_fun sl sl s = None /\ solve_fun (@v_pinv_dot F m n) (@v_pinv_dot F m n) s = None).
  by case: (s) => /=; [left|left|right].
case: Es => [[-> ->]|[-> ->]] //.
have [wl1 [Ewl1 [Hwl1 [Cl1 Al1]]]] := wire_asc (DUnk c) (dargs args) consts (nlls_closure dj res J sl) Ha Hb1.
have [wr1 [Ewr1 [Hwr1 [_ Ar1]]]] := wire_asc (DUnk c) (dargs args) consts res Ha Hb1.
have [wl2 [Ewl2 [Hwl2 [Cl2 Al2]]]] := wire_asc (Unk (pack n c)) (vargs args) consts (nlls_closure jac vres vJ (@v_pinv_dot F m n)) Ha Hb2.
have [wr2 [Ewr2 [Hwr2 [_ Ar2]]]] := wire_asc (Unk (pack n c)) (vargs args) consts vres Ha Hb2.
rewrite Ewl1 Ewr1 Ewl2 Ewr2 /= Cl1 Cl2; split=> //.
apply: out_rel; eapply run_sim; last exact: R0.
- move=> u v' Huv; exists (res (u :: dargs args)), (vres (v' :: vargs args)); split; last split.
  + by move: (Hwr1 u); rewrite /wired_eval Ar1 -Al1.
  + by move: (Hwr2 v'); rewrite /wired_eval Ar2 -Al2.
  + exact: res_rel.
- move=> u v' Huv; have [y1 [y2 [S1 [S2 [Ry E]]]]] := ls_rel Huv.
  exists (nlls_closure dj res J sl (u :: dargs args)), (nlls_closure jac vres vJ (@v_pinv_dot F m n) (v' :: vargs args)), y1, y2.
  by split; [exact: Hwl1|split; [exact: Hwl2|]].
- by move=> u v' Huv; apply: ones_rel.
Qed.
Lemma class_rel fuel xi0 vxi0 args0 vargs0 s tol maxIter timer printOut o vo :
  List.Forall (fun p => wf (snd p)) c ->
  NllsClass_init sl sl dj xi0 res args0 [::] J None None tol maxIter s timer printOut = Some o ->
  NllsClass_init (@v_pinv_dot F m n) (@v_pinv_dot F m n) jac vxi0 vres vargs0 [::] vJ None None tol maxIter s timer printOut = Some vo ->
  same_outcome c (fst (NllsClass_run (d_sub keq cl (fun x y => x - y)) (d_ones 1) maxl (d_maxabs maxl) (@v_gt F) fuel o (DUnk c) (dargs args)))
    (fst (NllsClass_run (@v_sub F Ar n) (@v_ones F Ar n) (@v_maxabs F m) (@v_maxabs F n) (@v_gt F) fuel vo (Unk (pack n c)) (vargs args))).
Proof.
move=> Wc; rewrite /NllsClass_init.
have R0 : RUd (DUnk c) (Unk (pack n c)) by exists c; split=> //; split=> //; exact: form_self.
have Es : (solve_fun sl sl s = Some sl /\ solve_fun (@v_pinv_dot F m n) (@v_pinv_dot F m n) s = Some (@v_pinv_dot F m n)) \/
   (solve_fun sl sl s = None /\ solve_fun (@v_pinv_dot F m n) (@v_pinv_dot F m n) s = None).
  by case: (s) => /=; [left|left|right].
case: Es => [[-> ->]|[-> ->]] //= [<-] [<-].
rewrite /NllsClass_run /=; apply: out_rel; eapply run_sim; last exact: R0.
- move=> u v' Huv; exists (res (u :: dargs args)), (vres (v' :: vargs args)); do 2 (split=> //).
  exact: res_rel.
- move=> u v' Huv; have [y1 [y2 [S1 [S2 [Ry E]]]]] := ls_rel Huv.
  by exists (nlls_closure dj res J sl (u :: dargs args)), (nlls_closure jac vres vJ (@v_pinv_dot F m n) (v' :: vargs args)), y1, y2.
- by move=> u v' Huv; apply: ones_rel.
Qed.
End Proofs.
