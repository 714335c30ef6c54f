(** C108: systems of linear differential equations, and equations in pieces, solved with constrained
    expressions that share unknowns, a TFCDict and LS or NLLS. *)
From Coq Require Import ZArith Lia Reals Lra.
From Coquelicot Require Import Coquelicot.
From mathcomp Require Import all_ssreflect all_algebra.
From Verif Require Import Base ModelDict SpecDict ProofDict ModelSolveDict SpecSolveDict ProofSolveDict
  ModelAffineDict SpecAffineDict ProofAffineDict PropAffineDict.
From Verif Require Import Numbers ModelBFPy SpecBasis ModelELM SpecELM ModelUtfc SpecUtfc ProofUtfc ProofTab ProofIndep SpecColl ProofColl ProofRecover
  RealStruct SpecRecover PropRecover ModelOde SpecOde ProofOde PropOde ModelOdeAny SpecOdeAny ProofOdeAny PropOdeAny
  ModelOdeSys SpecOdeSys ProofOdeSys.
Set Implicit Arguments.
Unset Strict Implicit.
Unset Printing Implicit Defensive.
Import GRing.Theory Num.Theory.
Local Open Scope ring_scope.

Section Sys.
Variables (jvp : (R -> R) -> R -> R -> R) (K : Type) (keq : K -> K -> bool).
Local Notation view := (seq (K * @arr R)).
Local Notation sfun := (sfun (K:=K)).
(** the utfc object and the conditions of one function form a script of C102, with [n] coefficients *)
Definition piece (f : sfun) (n E : nat) : Prop :=
  exists be bs N nC l deg x0 xf w b, scriptF jvp be bs N nC l deg x0 xf w b (f_u f) (List.map plain (f_cs f)) (f_phi f) E /\
  n = Nat.sub (S deg) (List.length l).
(** the dictionary has an array of [n] elements under [k] *)
Definition holds (c : view) (k : K) (n : nat) : Prop := exists a, List.In (k, a) c /\ a_shape a = [:: n].
Record system (fs : seq sfun) (eqs : seq seqn) (c : view) (E : nat) : Prop := {
  sy_keys : List.NoDup (List.map f_key fs);
  sy_fun : forall f, List.In f fs -> exists n, piece f n E /\ holds c (f_key f) n;
  sy_entry : forall f s k, List.In f fs -> List.In s (f_cs f) -> sc_val s = Entry k -> holds c k 1 /\ ~ List.In k (List.map f_key fs);
  sy_eqs : forall e t, List.In e eqs -> List.In t (e_terms e) ->
    Peano.lt (fst t) (List.length fs) /\ Peano.le (List.length (snd t)) (S E) }.
(** [y 0], [y 1], ... are the curves of the expressions with the unknowns [c] *)
Definition curvesS (c : view) (fs : seq sfun) (E : nat) (y : nat -> R -> R) : Prop :=
  forall i f e t, List.nth_error fs i = Some f -> Peano.le e E -> exprSys jvp keq c f [:: t] e = Some [:: Derive_n (y i) e t].
(** [jacfwd] finds the coefficients of residuals that are affine on dictionaries of the form of [c] *)
Definition differentiatesS (jacfwd : (view -> seq R) -> view -> view) (c : view) : Prop :=
  forall res m M b, (forall c', same_form c c' -> res c' = @affine_res R_realFieldType K m M b c') ->
  forall c', same_form c c' -> jac_of m M c' (jacfwd res c').

Hypothesis Hk : keq_ok keq.

Lemma dotv_sum M (c : view) : dotv M c = \sum_(p <- c) \sum_(j < size (a_data p.2)) M p.1 j * nth (0 : R_realFieldType) (a_data p.2) j.
Proof.
elim: c => [|[k a] c IH] /=; first by rewrite big_nil.
rewrite big_cons -IH; congr (_ + _).
by rewrite (row_comb_sum (n := List.length (a_data a)) _ erefl); apply: eq_bigr => j _; exact: mulrC.
Qed.
Lemma affine_dotv m M b (c : view) : @affine_res R_realFieldType K m M b c = List.map (fun r => Rplus (dotv (M r) c) (b r)) (List.seq 0 m).
Proof.
have -> : List.seq 0 m = iota 0 m by elim: m 0%N => [|m IH] s //=; rewrite IH.
by rewrite /affine_res; apply: eq_map => r; rewrite dotv_sum.
Qed.
Lemma diffS_differentiates (c : view) : List.NoDup (List.map fst c) -> differentiatesS (diffS keq) c.
Proof. by move=> Hn res m M b H; apply: (diffS_ok keq Hk c res m M b Hn) => c' Hc; rewrite H // affine_dotv. Qed.

Section Fixed.
Variables (fs : seq sfun) (eqs : seq seqn) (c : view) (E : nat).
Hypothesis Hn : List.NoDup (List.map fst c).
Hypothesis HS : system fs eqs c E.
Lemma holds_has k n : holds c k n -> has keq c k n.
Proof. by move=> [a [Hi Ea]]; exists a; split=> //; exact: (v_get_in keq Hk c k a Hn Hi). Qed.
Lemma good_all f : List.In f fs -> good jvp keq c f E.
Proof.
move=> Hf; have [n [[be [bs [N [nC [l [deg [x0 [xf [w [b [Hs En]]]]]]]]]]] Hh]] := sy_fun HS Hf.
case: Hs => Hj HN Hx Hu El Hv Hsm Hw Hcan Hcs Hphi.
have [h [HH0 [Hl Hd]]] := rowsF _ Hj _ _ _ _ _ _ _ _ _ _ _ Hu El Hv Hsm Hw.
exists n, h; split.
- by move=> xs e He; rewrite En; apply: HH0; apply: Hcan.
- by move=> e x; rewrite En; exact: Hl.
- exact: Hd.
- by move=> s Hs; exact: (Hcs (plain s) (List.in_map plain _ _ Hs)).
- exact: Hphi.
- exact: holds_has.
- by move=> s k Hs Ev; apply: holds_has; case: (sy_entry HS Hf Hs Ev).
Qed.
Lemma good_sys : goodS jvp keq c fs eqs E.
Proof. by split; [exact: good_all|move=> e t He Ht; exact: (sy_eqs HS He Ht)]. Qed.

Lemma sys_curves c' : same_form c c' -> curvesS c' fs E (Yc jvp keq c' fs) /\ allowed jvp fs (Yc jvp keq c' fs) /\
  forall i f, List.nth_error fs i = Some f -> smoothF (Yc jvp keq c' fs i).
Proof.
move=> Hc; have F i f : List.nth_error fs i = Some f -> Yc jvp keq c' fs i = Ysem jvp keq c' f /\ good jvp keq c f E.
  by move=> Ef; split; [rewrite /Yc Ef|apply: good_all; exact: (List.nth_error_In _ _ Ef)].
split.
  by move=> i f e t Ef He; have [-> G] := F i f Ef; have [H _] := good_facts jvp keq c f E c' G Hc; exact: H.
split.
  exists (fun k => get keq c' k 0%N) => i f Ef; have [-> G] := F i f Ef.
  by have [_ [_ [H1 [H2 _]]]] := good_facts jvp keq c f E c' G Hc.
by move=> i f Ef; have [-> G] := F i f Ef; have [_ [H _]] := good_facts jvp keq c f E c' G Hc.
Qed.
Lemma sys_reached p : allowed jvp fs p -> exists c', same_form c c' /\ curvesS c' fs E p /\
  forall i f, List.nth_error fs i = Some f -> forall t, p i t = Yc jvp keq c' fs i t.
Proof.
move=> Hp.
have [|c' [Hc Hy]] := reached jvp keq Hk c Hn fs E p good_all (sy_keys HS) _ Hp.
  by move=> f s k Hf Hs Ev; case: (sy_entry HS Hf Hs Ev).
exists c'; split=> //; split; last by move=> i f Ef t; rewrite (Hy i f Ef) /Yc Ef.
move=> i f e t Ef He; have [H _] := sys_curves Hc; rewrite (H i f e t Ef He); congr (Some [:: _]).
by apply: Derive_n_ext => s; rewrite (Hy i f Ef) /Yc Ef.
Qed.

Lemma system_ext terms y y' t : (forall p, List.In p terms -> forall s, y (fst p) s = y' (fst p) s) -> system_at terms y t = system_at terms y' t.
Proof.
elim: terms => [|p terms IH] //= H; rewrite IH; last by move=> q Hq; apply: H; right.
by congr Rplus; apply: odeF_ext => s; apply: H; left.
Qed.
Lemma misfit_ext y y' : (forall i f, List.nth_error fs i = Some f -> forall t, y i t = y' i t) -> misfitS eqs y = misfitS eqs y'.
Proof.
move=> H; have : forall e t, List.In e eqs -> List.In t (e_terms e) -> Peano.lt (fst t) (List.length fs).
  by move=> e t He Ht; case: (sy_eqs HS He Ht).
elim: eqs => [|e l IH] //= Hi; rewrite IH; last by move=> e' t He; apply: Hi; right.
congr Rplus; elim: (e_pts e) => [|t xs IHx] //=; rewrite IHx; congr Rplus; congr (Rmult _ (Rmult _ _));
  congr Rminus; apply: system_ext => p Hp s; (have [f Ef] : exists f, List.nth_error fs (fst p) = Some f by
    case Ef: (List.nth_error fs (fst p)) => [f|]; [exists f|have := Hi e p (or_introl erefl) Hp; move/List.nth_error_None: Ef; lia]);
  exact: (H _ f Ef s).
Qed.
Lemma sumsq_misfit y : @sumsq R_realFieldType (resid fs eqs y) = misfitS eqs y.
Proof.
rewrite /sumsq /resid; elim: eqs => [|e l IH] /=; first by rewrite big_nil.
rewrite -[(_ ++ _)%list]/(_ ++ _) big_cat /= IH; congr Rplus.
elim: (e_pts e) => [|t xs IHx] /=; first by rewrite big_nil.
by rewrite big_cons IHx expr2 Rmult_1_r.
Qed.
Lemma misfit_eqn_ge0 terms q y xs : Rle 0 (misfit_eqn terms q y xs).
Proof. by elim: xs => [|x xs IH] /=; [exact: Rle_refl|apply: Rplus_le_le_0_compat => //; exact: pow2_ge_0]. Qed.
Lemma misfitS_ge0 l y : Rle 0 (misfitS l y).
Proof. by elim: l => [|e l IH] /=; [exact: Rle_refl|apply: Rplus_le_le_0_compat => //; exact: misfit_eqn_ge0]. Qed.
Lemma misfit_eqn_0 terms q y xs : (forall t, List.In t xs -> system_at terms y t = q t) <-> misfit_eqn terms q y xs = R0.
Proof.
elim: xs => [|x xs [IH1 IH2]] /=; first by split.
have H0 := misfit_eqn_ge0 terms q y xs; have H1 := pow2_ge_0 (Rminus (system_at terms y x) (q x)).
split=> [H|H].
  rewrite (H x (or_introl erefl)) IH1; last by move=> z Hz; apply: H; right.
  by rewrite Rminus_eq_0 Rmult_0_l Rplus_0_l.
move: H1 H; rewrite /= => H1 H.
have E1 : Rmult (Rminus (system_at terms y x) (q x)) (Rmult (Rminus (system_at terms y x) (q x)) R1) = R0 by lra.
have E2 : misfit_eqn terms q y xs = R0 by lra.
move=> z [<-|Hz]; last exact: IH2.
have : Rminus (system_at terms y x) (q x) = R0 by case: (Rmult_integral _ _ E1) => // E3; case: (Rmult_integral _ _ E3) => // E4; lra.
lra.
Qed.
Lemma misfitS_0 l y : (forall e, List.In e l -> solves_eqn y e) <-> misfitS l y = R0.
Proof.
elim: l => [|e l [IH1 IH2]] /=; first by split.
have H0 := misfit_eqn_ge0 (e_terms e) (e_q e) y (e_pts e); have H1 := misfitS_ge0 l y.
split=> [H|H].
  rewrite IH1; last by move=> e' He; apply: H; right.
  by have /misfit_eqn_0 -> := H e (or_introl erefl); rewrite Rplus_0_l.
have E1 : misfit_eqn (e_terms e) (e_q e) y (e_pts e) = R0 by lra.
have E2 : misfitS l y = R0 by lra.
by move=> e' [<-|He]; [apply/misfit_eqn_0|exact: IH2].
Qed.

Lemma sys_affine jacfwd res : (forall c', same_form c c' -> residualS jvp keq c' fs eqs = Some (res c')) -> differentiatesS jacfwd c ->
  exists m M b, @affine_on R_realFieldType K jacfwd res c m M b.
Proof.
move=> Hr Hj; have [rows Hrow] := resid_aff jvp keq Hk c Hn fs eqs E good_sys.
pose d : (K -> nat -> R) * R := (fun _ _ => R0, R0).
pose M := fun r => fst (List.nth r rows d); pose b := fun r => snd (List.nth r rows d).
have Ha c' : same_form c c' -> res c' = @affine_res R_realFieldType K (List.length rows) M b c'.
  move=> Hc; have := Hr c' Hc; rewrite (residualS_ok jvp keq c fs eqs E c' good_sys Hc) (Hrow c' Hc) => -[<-].
  rewrite affine_dotv.
  apply: (List.nth_ext _ _ R0 R0); rewrite !List.map_length ?List.seq_length // => i Hi.
  rewrite (List.nth_indep _ R0 (Rplus (dotv (fst d) c') (snd d))) ?List.map_length // (List.map_nth (fun r => Rplus (dotv (fst r) c') (snd r))).
  rewrite (List.nth_indep (List.map _ (List.seq _ _)) R0 (Rplus (dotv (M 0%N) c') (b 0%N))) ?List.map_length ?List.seq_length //.
  by rewrite (List.map_nth (fun r => Rplus (dotv (M r) c') (b r))) List.seq_nth.
by exists (List.length rows), M, b => c' Hc; split; [exact: Ha|exact: (Hj res _ M b Ha c' Hc)].
Qed.

Lemma sys_best res c' : (forall c', same_form c c' -> residualS jvp keq c' fs eqs = Some (res c')) -> same_form c c' ->
  @SpecAffineDict.best R_realFieldType K res c' ->
  (forall p, allowed jvp fs p -> Rle (misfitS eqs (Yc jvp keq c' fs)) (misfitS eqs p)) /\
  ((exists p, allowed jvp fs p /\ forall e, List.In e eqs -> solves_eqn p e) -> forall e, List.In e eqs -> solves_eqn (Yc jvp keq c' fs) e).
Proof.
move=> Hr Hc Hb.
have Hres c1 : same_form c c1 -> @sumsq R_realFieldType (res c1) = misfitS eqs (Yc jvp keq c1 fs).
  by move=> H1; have := Hr c1 H1; rewrite (residualS_ok jvp keq c fs eqs E c1 good_sys H1) => -[<-]; exact: sumsq_misfit.
have Hbest p : allowed jvp fs p -> Rle (misfitS eqs (Yc jvp keq c' fs)) (misfitS eqs p).
  move=> Hp; have [c1 [H1 [_ Ep]]] := sys_reached Hp.
  rewrite (misfit_ext Ep) -!Hres //; apply/RlebP; apply: Hb.
  by case: Hc H1 => [A1 [A2 A3]] [B1 [B2 B3]]; split; [rewrite B1|split=> //; rewrite B2].
split=> // -[p [Hp /misfitS_0 H0]]; apply/misfitS_0.
by have := Hbest p Hp; have := misfitS_ge0 eqs (Yc jvp keq c' fs); rewrite H0; lra.
Qed.
End Fixed.
End Sys.

(** ** C108 *)
(** Whatever the unknowns, the expressions are smooth functions that meet the given conditions exactly
    and agree exactly wherever they share an unknown; and every such family of combinations of the kept
    basis functions and the switching functions is reached by some unknowns. *)
Theorem C108_conditions : forall jvp (K : Type) (keq : K -> K -> bool) fs eqs (c : seq (K * @arr R)) E,
  keq_ok keq -> List.NoDup (List.map fst c) -> system jvp fs eqs c E ->
  (forall c', same_form c c' -> exists y, curvesS jvp keq c' fs E y /\ allowed jvp fs y /\
     forall i f, List.nth_error fs i = Some f -> smoothF (y i)) /\
  (forall y, allowed jvp fs y -> exists c', same_form c c' /\ curvesS jvp keq c' fs E y).
Proof.
move=> jvp K keq fs eqs c E Hk Hn HS; split.
  by move=> c' Hc; exists (Yc jvp keq c' fs); exact: (sys_curves Hk Hn HS Hc).
by move=> y Hy; have [c' [H1 [H2 _]]] := sys_reached Hk Hn HS Hy; exists c'.
Qed.
Print Assumptions C108_conditions.

(** LS on the TFCDict of the unknowns gives the family of functions that fits the equations best at
    their points; if an allowed family solves them there, so does the one LS gives. *)
Theorem C108_ls : forall jvp (K : Type) (keq : K -> K -> bool) fs eqs E jacfwd res h (d : @tdict R K) c,
  keq_ok keq -> fresh d_refresh h d -> contents h d = Some c -> c <> [::] -> List.Forall (fun p => is1d (snd p)) c ->
  system jvp fs eqs c E -> (forall c', same_form c c' -> residualS jvp keq c' fs eqs = Some (res c')) -> differentiatesS jacfwd c ->
  exists h' d' c' y, LS_dict keq R0 Rplus Ropp (@l_solve R_realFieldType) jacfwd Plain h d res = Some (h', d') /\
    contents h' d' = Some c' /\ same_form c c' /\ contents h' d = Some c /\
    curvesS jvp keq c' fs E y /\ allowed jvp fs y /\
    (forall p, allowed jvp fs p -> Rle (misfitS eqs y) (misfitS eqs p)) /\
    ((exists p, allowed jvp fs p /\ forall e, List.In e eqs -> solves_eqn p e) -> forall e, List.In e eqs -> solves_eqn y e).
Proof.
move=> jvp K keq fs eqs E jacfwd res h d c Hk Hf Hc Hne H1 HS Hr Hj.
have Hn : List.NoDup (List.map fst c) by have [_ <-] := contents_ld _ _ _ Hc; exact: (fresh_keys _ _ _ Hf).
have [m [M [b Ha]]] := sys_affine Hk Hn HS Hr Hj.
have [h' [d' [c' [EE [Cc [Fc [Hb Cd]]]]]]] := @C39_ls_partial R_realFieldType K keq jacfwd res h d c m M b Hk Hf Hc Hne H1 Ha.
have [Hcu [Hal _]] := sys_curves Hk Hn HS Fc.
have [B1 B2] := sys_best Hk Hn HS Hr Fc Hb.
by exists h', d', c', (Yc jvp keq c' fs).
Qed.
Print Assumptions C108_ls.

(** One iteration of NLLS, from any unknowns, gives as good a fit. *)
Theorem C108_nlls_step : forall jvp (K : Type) (keq : K -> K -> bool) fs eqs E jacfwd res h (d : @tdict R K) c,
  keq_ok keq -> fresh d_refresh h d -> contents h d = Some c -> c <> [::] -> List.Forall (fun p => is1d (snd p)) c ->
  system jvp fs eqs c E -> (forall c', same_form c c' -> residualS jvp keq c' fs eqs = Some (res c')) -> differentiatesS jacfwd c ->
  exists d' c' dxi y, NLLS_step keq Rminus (@l_solve R_realFieldType) jacfwd Plain h d res = Some (h, d', dxi) /\
    contents h d' = Some c' /\ same_form c c' /\ curvesS jvp keq c' fs E y /\ allowed jvp fs y /\
    (forall p, allowed jvp fs p -> Rle (misfitS eqs y) (misfitS eqs p)) /\
    ((exists p, allowed jvp fs p /\ forall e, List.In e eqs -> solves_eqn p e) -> forall e, List.In e eqs -> solves_eqn y e).
Proof.
move=> jvp K keq fs eqs E jacfwd res h d c Hk Hf Hc Hne H1 HS Hr Hj.
have Hn : List.NoDup (List.map fst c) by have [_ <-] := contents_ld _ _ _ Hc; exact: (fresh_keys _ _ _ Hf).
have [m [M [b Ha]]] := sys_affine Hk Hn HS Hr Hj.
have [d' [c' [dxi [EE [Cc [Fc [Hb _]]]]]]] := @C39_nlls_step_partial R_realFieldType K keq Plain jacfwd res h d c m M b Hk Hc Hne Ha (conj Hf H1).
have [Hcu [Hal _]] := sys_curves Hk Hn HS Fc.
have [B1 B2] := sys_best Hk Hn HS Hr Fc Hb.
by exists d', c', dxi, (Yc jvp keq c' fs).
Qed.
Print Assumptions C108_nlls_step.

(** y' = 1 from 0 to 1 with y(0) = 0, y' = 0 from 1 to 2, the same value of both pieces at 1; Chebyshev
    polynomials of degree two, two functions left out in the first piece and one in the second, two
    points each: LS meets the condition, joins the pieces exactly and solves both equations at the points *)
Lemma lin_smooth p q : smoothF (fun t => Rplus p (Rmult q t)) /\
  forall t, Derive (fun t => Rplus p (Rmult q t)) t = q.
Proof.
pose G e t := if e is O then Rplus p (Rmult q t) else if e is 1%N then q else R0.
have HG e t : is_derive (G e) t (G (S e) t).
  case: e => [|[|e]] /=; [|apply: is_derive_const|apply: is_derive_const].
  by apply: (is_derive_ext (G 0%N)) => //; rewrite /G; auto_derive => //; ring.
split; last by move=> t; apply: is_derive_unique; exact: (HG 0%N t).
by move=> [|e] t //; exists (G (S e) t); exact: (is_derive_n_chain G HG (S e) t).
Qed.
Example C108_case : exists u1 u2 h' (d d' : @tdict R nat) (y : nat -> R -> R) (res : seq (nat * @arr R) -> seq R),
  let one := fun t => Rplus R1 (Rmult R0 t) in let up := fun t => Rplus R0 (Rmult R1 t) in let down := fun t => Rplus R1 (Rmult (Ropp R1) t) in
  let fs := [:: SFun 0%N u1 [:: SCond 0 R0 (Given R0); SCond 0 R1 (Entry 2%N)] [:: down; up];
                SFun 1%N u2 [:: SCond 0 R1 (Entry 2%N)] [:: one]] in
  let eqs := [:: SEqn (u_x u1) [:: (0%N, [:: (fun _ => R0); (fun _ => R1)])] (fun _ => R1);
                 SEqn (u_x u2) [:: (1%N, [:: (fun _ => R0); (fun _ => R1)])] (fun _ => R0)] in
  mk Cpp (UB CP) 2 (NcInt (Z.of_nat 2)) 2 R0 R1 [::] [::] = Some u1 /\
  mk Cpp (UB CP) 2 (NcInt (Z.of_nat 1)) 2 R1 (INR 2) [::] [::] = Some u2 /\
  d_new Nat.eqb [::] [:: (0%N, Jax (Arr_ [:: 1%N] [:: R0])); (1%N, Jax (Arr_ [:: 2%N] [:: R0; R0])); (2%N, Jax (Arr_ [:: 1%N] [:: R1]))] = Some d /\
  (forall c, contents [::] d = Some c -> forall c', same_form c c' -> residualS rjvp Nat.eqb c' fs eqs = Some (res c')) /\
  LS_dict Nat.eqb R0 Rplus Ropp (@l_solve R_realFieldType) (diffS Nat.eqb) Plain [::] d res = Some (h', d') /\
  y 0%N R0 = R0 /\ y 0%N R1 = y 1%N R1 /\
  (forall t, List.In t (u_x u1) -> Derive (y 0%N) t = R1) /\ (forall t, List.In t (u_x u2) -> Derive (y 1%N) t = R0).
Proof.
have [||||u1 Hu1] := @mk_some Cpp (UB CP) 2 (NcInt (Z.of_nat 2)) [:: Z0; Zpos xH] 2 R0 R1 [::] [::] erefl.
- by rewrite /=; lia.
- by move=> i [<-|[<-|[]]]; lia.
- by left.
- by lia.
have [||||u2 Hu2] := @mk_some Cpp (UB CP) 2 (NcInt (Z.of_nat 1)) [:: Z0] 2 R1 (INR 2) [::] [::] erefl.
- by rewrite /=; lia.
- by move=> i [<-|[]]; lia.
- by left.
- by lia.
pose one := fun t => Rplus R1 (Rmult R0 t); pose up := fun t => Rplus R0 (Rmult R1 t); pose down := fun t => Rplus R1 (Rmult (Ropp R1) t).
pose f1 := SFun 0%N u1 [:: SCond 0 R0 (Given R0); SCond 0 R1 (Entry 2%N)] [:: down; up].
pose f2 := SFun 1%N u2 [:: SCond 0 R1 (Entry 2%N)] [:: one].
pose e1 := SEqn (u_x u1) [:: (0%N, [:: (fun _ => R0); (fun _ => R1)])] (fun _ => R1).
pose e2 := SEqn (u_x u2) [:: (1%N, [:: (fun _ => R0); (fun _ => R1)])] (fun _ => R0).
pose c : seq (nat * @arr R) := [:: (0%N, Arr_ [:: 1%N] [:: R0]); (1%N, Arr_ [:: 2%N] [:: R0; R0]); (2%N, Arr_ [:: 1%N] [:: R1])].
have Hk : keq_ok Nat.eqb by move=> x y; exact: Nat.eqb_eq.
pose its := [:: (0%N, Jax (Arr_ [:: 1%N] [:: R0])); (1%N, Jax (Arr_ [:: 2%N] [:: R0; R0])); (2%N, Jax (Arr_ [:: 1%N] [:: R1]))] : seq (nat * @val R).
have [d Hd] : exists d, d_new Nat.eqb [::] its = Some d by eexists; reflexivity.
have Hc : contents [::] d = Some c by move: Hd => [<-].
have Hf : fresh d_refresh [::] d.
  move: Hd => [<-]; split; last by [].
  by rewrite /=; repeat constructor => /=; intuition discriminate.
have Hn : List.NoDup (List.map fst c) by rewrite /=; repeat constructor => /=; intuition discriminate.
have S1 : switchingF (List.map plain (f_cs f1)) [:: down; up].
  split=> //; split.
    by move=> p [<-|[<-|[]]]; [exact: (proj1 (lin_smooth _ _))|exact: (proj1 (lin_smooth _ _))].
  move=> [|[|i]] [|[|j]] k p //=; try by case: i.
  - by move=> [<-] [<-] /=; rewrite /down; lra.
  - by move=> [<-] [<-] /=; rewrite /up; lra.
  - by move=> _; case: j.
  - by move=> [<-] [<-] /=; rewrite /down; lra.
  - by move=> [<-] [<-] /=; rewrite /up; lra.
  - by move=> _; case: j.
have S2 : switchingF (List.map plain (f_cs f2)) [:: one].
  split=> //; split.
    by move=> p [<-|[]]; exact: (proj1 (lin_smooth _ _)).
  move=> [|i] [|j] k p //=; try by case: i.
  - by move=> [<-] [<-] /=; rewrite /one; lra.
  - by move=> _; case: j.
have HS : system rjvp [:: f1; f2] [:: e1; e2] c 1.
  split.
  - by rewrite /=; repeat constructor => /=; intuition discriminate.
  - move=> f [<-|[<-|[]]].
      exists 1%N; split; last by exists (Arr_ [:: 1%N] [:: R0]); split=> //; left.
      exists Cpp, (UB CP), 2%N, (NcInt (Z.of_nat 2)), [:: Z0; Zpos xH], 2%N, R0, R1, [::], [::]; split=> //.
      split=> //; first exact: rjvp_ok.
      + by lra.
      + by split; [repeat constructor => /=; intuition discriminate|move=> i [<-|[<-|[]]]; rewrite /=; lia].
      + by move=> k [<-|[<-|[]]] /=; lia.
    exists 2%N; split; last by exists (Arr_ [:: 2%N] [:: R0; R0]); split=> //; right; left.
    exists Cpp, (UB CP), 2%N, (NcInt (Z.of_nat 1)), [:: Z0], 2%N, R1, (INR 2), [::], [::]; split=> //.
    split=> //; first exact: rjvp_ok.
    + by rewrite /=; lra.
    + by split; [repeat constructor => /=; intuition discriminate|move=> i [<-|[]]; rewrite /=; lia].
    + by move=> k [<-|[]] /=; lia.
  - have H2 : holds c 2%N 1%N /\ ~ List.In 2%N [:: 0%N; 1%N].
      split; first by exists (Arr_ [:: 1%N] [:: R1]); split=> //; right; right; left.
      by move=> /=; intuition discriminate.
    by move=> f s k [<-|[<-|[]]]; [move=> [<-|[<-|[]]] //= [<-]|move=> [<-|[]] //= [<-]].
  - by move=> e t [<-|[<-|[]]] [<-|[]] /=; lia.
have G := good_sys Hk Hn HS.
pose res c' := odflt [::] (residualS rjvp Nat.eqb c' [:: f1; f2] [:: e1; e2]).
have Hr c' : same_form c c' -> residualS rjvp Nat.eqb c' [:: f1; f2] [:: e1; e2] = Some (res c').
  by move=> H; rewrite /res (residualS_ok rjvp Nat.eqb c _ _ 1 c' G H).
have H1 : List.Forall (fun p => is1d (snd p)) c by repeat constructor.
have Hne : c <> [::] by [].
have [h' [d' [c' [y [EE [_ [_ [_ [_ [[val Hal] [_ Hsol]]]]]]]]]]] :=
  @C108_ls rjvp nat Nat.eqb [:: f1; f2] [:: e1; e2] 1 (diffS Nat.eqb) res [::] d c Hk Hf Hc Hne H1 HS Hr (diffS_differentiates Hk Hn).
have [_ M1] := Hal 0%N f1 erefl; have [_ M2] := Hal 1%N f2 erefl.
exists u1, u2, h', d, d', y, res; split; first exact: Hu1.
split; first exact: Hu2.
split; first exact: Hd.
split; first by move=> c1; rewrite Hc => -[<-]; exact: Hr.
split; first exact: EE.
split; first exact: (M1 _ (or_introl erefl)).
split; first by have /= -> := M1 _ (or_intror (or_introl erefl)); have /= -> := M2 _ (or_introl erefl).
have {}Hsol : forall e, List.In e [:: e1; e2] -> solves_eqn y e.
  apply: Hsol; exists (fun i => if i is O then up else one); split.
    have span u phi (p : R -> R) r n : List.length r = List.length phi ->
        (forall t, exists row, utfc_H ROps RFun rjvp u [:: t] 0 false = Some (Mat 1 n [:: row])) ->
        (forall t, p t = combF r phi t) -> spannedF rjvp u phi p.
      move=> Hl HH Hp; exists (fun _ => R0), r; split=> // t; have [row HH'] := HH t; exists (Mat 1 n [:: row]), row; split=> //.
      split=> //; rewrite Hp; have -> : row_comb (fun _ => R0) row = R0 by elim: (row) => [|x r' IH] //=; rewrite IH; lra.
      by lra.
    have rows f : List.In f [:: f1; f2] -> exists n, forall t, exists row, utfc_H ROps RFun rjvp (f_u f) [:: t] 0 false = Some (Mat 1 n [:: row]).
      move=> Hi; have [n [h [HH _ _ _ _ _ _]]] := good_all Hk Hn HS Hi.
      by exists n => t; exists (h 0%N t); rewrite HH //; lia.
    exists (fun _ => R1) => -[|[|i]] f; last by case: i.
      move=> [<-]; split.
        have [n Hrow] := rows f1 (or_introl erefl).
        by apply: (span _ _ _ [:: R0; R1] n) => // t; rewrite /= /up /down; lra.
      by move=> s [<-|[<-|[]]] /=; rewrite /up; lra.
    move=> [<-]; split.
      have [n Hrow] := rows f2 (or_intror (or_introl erefl)).
      by apply: (span _ _ _ [:: R1] n) => // t; rewrite /= /one; lra.
    by move=> s [<-|[]] /=; rewrite /one; lra.
  move=> e [<-|[<-|[]]] t _; rewrite /= /odeF /=.
    by have := proj2 (lin_smooth R0 R1) t; rewrite /up => ->; lra.
  by have := proj2 (lin_smooth R1 R0) t; rewrite /one => ->; lra.
split=> t Ht.
  by have := Hsol e1 (or_introl erefl) t Ht; rewrite /= /odeF /= => H; rewrite -[RHS]H; change (Derive (y 0%N) t = Rplus (Rplus (Rmult R0 (y 0%N t)) (Rplus (Rmult R1 (Derive (y 0%N) t)) R0)) R0); lra.
by have := Hsol e2 (or_intror (or_introl erefl)) t Ht; rewrite /= /odeF /= => H; rewrite -[RHS]H; change (Derive (y 1%N) t = Rplus (Rplus (Rmult R0 (y 1%N t)) (Rplus (Rmult R1 (Derive (y 1%N) t)) R0)) R0); lra.
Qed.
