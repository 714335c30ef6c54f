(** C102: linear differential equations with any coefficients, on any basis, solved with a constrained
    expression and LS or NLLS. *)
From Coq Require Import ZArith Lia Reals Lra.
From Coquelicot Require Import Coquelicot.
From mathcomp Require Import all_ssreflect all_algebra.
From Verif Require Import Base ModelPe SpecPe ProofPe ModelSolve SpecSolve ProofSolve ModelPinv SpecPinv ProofPinv
  ModelAffine SpecAffine ProofAffine PropAffine.
From Verif Require Import Numbers ModelBFPy SpecBasis ModelELM SpecELM ModelUtfc SpecUtfc ProofUtfc ProofTab ProofIndep SpecColl ProofColl ProofRecover
  RealStruct SpecRecover PropRecover ModelOde SpecOde ProofOde PropOde ModelOdeAny SpecOdeAny ProofOdeAny.
Set Implicit Arguments.
Unset Strict Implicit.
Unset Printing Implicit Defensive.
Import GRing.Theory Num.Theory.
Local Open Scope ring_scope.

(** the residual function handed to the solver is that of the script *)
Definition runs_scriptF (Ar : Type) N n jvp (u : utfc (T:=R)) cs phi co q (args : seq (value R_realFieldType Ar n))
    (res : seq (value R_realFieldType Ar n) -> 'cV[R]_N) : Prop :=
  forall xi : 'cV[R]_n, residualF jvp u cs phi co q (fun_of xi) = Some [seq res (Unk xi :: args) i 0 | i <- enum 'I_N].
(** [y] is the curve of the expression with the coefficients [xi], its derivatives up to order [E] included *)
Definition curveF n jvp (u : utfc (T:=R)) cs phi E (xi : 'cV[R]_n) (y : R -> R) : Prop :=
  forall e t, Peano.le e E -> exprF jvp u cs phi [:: t] e (fun_of xi) = Some [:: Derive_n y e t].
(** a script: its basis, the functions it leaves out, its conditions with their switching functions, and
    derivatives that the basis can evaluate *)
Record scriptF jvp be bs N nC l deg x0 xf w b u cs phi E : Prop := {
  sc_jvp : jvp_ok jvp;
  sc_N : Peano.le 2 N;
  sc_x : x0 <> xf :> R;
  sc_mk : mk be bs N nC deg x0 xf w b = Some u;
  sc_nC : utfc_nC nC = Some l;
  sc_valid : valid_nC l (S deg);
  sc_smooth : smooth_basis bs;
  sc_weights : weights_fit bs deg w b;
  sc_can : forall e, Peano.le e E -> can be bs e;
  sc_cond : forall c, List.In c cs -> Peano.le (c_ord c) E;
  sc_phi : switchingF cs phi }.

Section Ode.
Variables (Ar : Type) (jvp : (R -> R) -> R -> R -> R) (be : backend) (bs : ubasis) (N : nat) (nC : nc_arg) (l : seq Z) (deg : nat).
Variables (x0 xf : R) (w b : seq R) (u : utfc (T:=R)) (cs : seq cond) (phi co : seq (R -> R)) (q : R -> R) (E : nat).
Local Notation n := (Nat.sub (S deg) (List.length l)).
Hypothesis HS : scriptF jvp be bs N nC l deg x0 xf w b u cs phi E.
Hypothesis Hco : Peano.le (List.length co) (S E).

Lemma misfitF_sum y (xs : seq R) m : size xs = m -> misfitF co q y xs = \sum_(i < m) (Rminus (odeF co y (nth 0 xs i)) (q (nth 0 xs i))) ^+ 2.
Proof.
elim: xs m => [|x xs IH] [|m] //= Hs; first by rewrite big_ord0.
rewrite big_ord_recl /= (IH m); last by case: Hs.
by congr (_ + _); rewrite Rmult_1_r expr2.
Qed.

Lemma scriptF_facts : exists (A : 'M[R]_(N, n)) (c : 'cV[R]_N),
  (forall args res, @runs_scriptF Ar N n jvp u cs phi co q args res -> res_is res args A c) /\
  size (u_x u) = N /\ Peano.le (List.length l) deg /\
  (forall xi : 'cV[R]_n, exists y, curveF jvp u cs phi E xi y /\ smoothF y /\ spannedF jvp u phi y /\ (forall k, List.In k cs -> meets y k) /\
     forall i : 'I_N, affine A c xi i 0 = Rminus (odeF co y (nth 0 (u_x u) i)) (q (nth 0 (u_x u) i))) /\
  (forall y, spannedF jvp u phi y -> (forall k, List.In k cs -> meets y k) -> exists xi : 'cV[R]_n, curveF jvp u cs phi E xi y).
Proof.
case: HS => Hj HN Hx Hu El Hv Hsm Hw Hcan Hcs Hphi.
have [h [HH0 [Hl Hd]]] := rowsF _ Hj _ _ _ _ _ _ _ _ _ _ _ Hu El Hv Hsm Hw.
have HH : forall xs e, Peano.le e E -> utfc_H ROps RFun jvp u xs e false = Some (Mat (List.length xs) n (List.map (h e) xs)).
  by move=> xs e He; apply: HH0; apply: Hcan.
have Hsz : size (u_x u) = N.
  by rewrite (c18_points _ _ _ _ _ _ _ _ _ _ HN Hx Hu) -[size _]/(List.length _) List.map_length List.seq_length.
have Hle : Peano.le (List.length l) deg.
  by have [l' [z [x [El' [Hl' _]]]]] := mk_inv _ _ _ _ _ _ _ _ _ _ Hu; move: El'; rewrite El => -[->].
pose F x := @resF_aff n h cs phi Hl co q x.
pose A : 'M[R]_(N, n) := \matrix_(i, j) nth 0 (projT1 (F (nth 0 (u_x u) i))) j.
pose c : 'cV[R]_N := \col_i sval (projT2 (F (nth 0 (u_x u) i))).
have HA xi (i : 'I_N) : affine A c xi i 0 = Rminus (LF h cs phi 0 co (fun_of xi) (nth 0 (u_x u) i)) (q (nth 0 (u_x u) i)).
  have [Hr EE] := svalP (projT2 (F (nth 0 (u_x u) i))).
  rewrite /affine mxE [c i 0]mxE EE (fun_of_row _ Hr) mxE; congr (_ + _).
  by apply: eq_bigr => j _; rewrite mxE.
exists A, c; split.
  move=> args res Hrun xi; move: (Hrun xi); rewrite (residualF_ok _ _ _ _ _ _ _ HH Hcs _ _ _ Hco) => -[EE].
  apply/matrixP=> i j; rewrite ord1 HA.
  have := congr1 (fun s => nth 0 s i) EE; rewrite nth_map_real ?Hsz //.
  by rewrite (nth_map i) ?size_enum_ord // nth_ord_enum => ->.
split=> //; split=> //.
have Hcurve a e t : Peano.le e E -> exprF jvp u cs phi [:: t] e a = Some [:: Derive_n (YF h cs phi a 0) e t].
  by move=> He; rewrite (exprF_ok _ _ _ _ _ _ _ HH Hcs _ _ _ He) /= (is_derive_n_unique _ _ _ _ (YF_derive_n _ _ _ Hd Hphi a e t)).
split.
  move=> xi; exists (YF h cs phi (fun_of xi) 0).
  split; first by move=> e t; exact: Hcurve.
  split; first exact: (YF_smooth _ _ _ Hd Hphi).
  split; first exact: (YF_spanned _ _ _ _ _ _ _ HH Hphi).
  split; first by move=> k Hk; exact: (YF_meets _ _ _ Hd Hphi _ _ Hk).
  by move=> i; rewrite HA (LF_ode _ _ _ Hd Hphi).
move=> y Hy Hm.
have [a [r [Hr Er]]] := spannedF_rows _ _ _ _ _ _ HH _ Hy.
pose xi : 'cV[R]_n := \col_j a j.
have Ea e t : row_comb (fun_of xi) (h e t) = row_comb a (h e t).
  rewrite (fun_of_row _ (Hl e t)) (row_comb_sum _ (Hl e t)).
  by apply: eq_bigr => j _; rewrite mxE.
exists xi => e t He; rewrite Hcurve //; congr (Some [:: _]); apply: Derive_n_ext => s.
by symmetry; apply: (spannedF_is _ _ _ Hd Hphi _ r) => // t'; rewrite Er Ea.
Qed.

(** the residual of the script can be evaluated *)
Lemma scriptF_runs args : exists res, @runs_scriptF Ar N n jvp u cs phi co q args res.
Proof.
case: HS => Hj HN Hx Hu El Hv Hsm Hw Hcan Hcs Hphi.
have [h [HH0 [Hl Hd]]] := rowsF _ Hj _ _ _ _ _ _ _ _ _ _ _ Hu El Hv Hsm Hw.
have HH : forall xs e, Peano.le e E -> utfc_H ROps RFun jvp u xs e false = Some (Mat (List.length xs) n (List.map (h e) xs)).
  by move=> xs e He; apply: HH0; apply: Hcan.
have Hsz : size (u_x u) = N.
  by rewrite (c18_points _ _ _ _ _ _ _ _ _ _ HN Hx Hu) -[size _]/(List.length _) List.map_length List.seq_length.
exists (fun v : seq (value R_realFieldType Ar n) =>
  if v is Unk x :: _ then \col_i nth 0 (odflt [::] (residualF jvp u cs phi co q (fun_of x))) i else 0).
move=> xi; rewrite (residualF_ok _ _ _ _ _ _ _ HH Hcs _ _ _ Hco); congr Some.
apply: (@eq_from_nth _ 0); first by rewrite [RHS]size_map size_enum_ord -[RHS]Hsz; exact: List.map_length.
move=> i; rewrite -[size _]/(List.length _) List.map_length => Hi.
have HiN : (i < N)%N by rewrite -Hsz.
by rewrite (nth_map (Ordinal HiN)) ?size_enum_ord // mxE /= nth_enum_ord.
Qed.

Lemma norm2_misfitF (A : 'M[R]_(N, n)) c xi y : size (u_x u) = N ->
  (forall i : 'I_N, affine A c xi i 0 = Rminus (odeF co y (nth 0 (u_x u) i)) (q (nth 0 (u_x u) i))) ->
  norm2 (affine A c xi) = misfitF co q y (u_x u).
Proof. by move=> Hs H; rewrite (misfitF_sum _ Hs); apply: eq_bigr => i _; rewrite H. Qed.
Lemma misfitF_ge0 y xs : Rle 0 (misfitF co q y xs).
Proof. by elim: xs => [|x xs IH] /=; [exact: Rle_refl|apply: Rplus_le_le_0_compat => //; exact: pow2_ge_0]. Qed.
Lemma misfitF_0 y xs : (forall x, List.In x xs -> odeF co y x = q x) <-> misfitF co q y xs = R0.
Proof.
elim: xs => [|x xs [IH1 IH2]] /=; first by split.
have H0 := misfitF_ge0 y xs; have H1 := pow2_ge_0 (Rminus (odeF co y x) (q x)).
split=> [H|H].
  rewrite (H x (or_introl erefl)) IH1; last by move=> z Hz; apply: H; right.
  by rewrite Rminus_eq_0 Rmult_0_l Rplus_0_l.
move: H1 H; rewrite /= => H1 H.
have E1 : Rmult (Rminus (odeF co y x) (q x)) (Rmult (Rminus (odeF co y x) (q x)) R1) = R0 by lra.
have E2 : misfitF co q y xs = R0 by lra.
move=> z [<-|Hz]; last exact: IH2.
have : Rminus (odeF co y x) (q x) = R0 by case: (Rmult_integral _ _ E1) => // E3; case: (Rmult_integral _ _ E3) => // E4; lra.
lra.
Qed.
Lemma curveF_ext (xi : 'cV[R]_n) y y' : curveF jvp u cs phi E xi y -> curveF jvp u cs phi E xi y' -> forall t, y t = y' t.
Proof. by move=> H H' t; have := H 0%N t (Nat.le_0_l _); rewrite (H' 0%N t (Nat.le_0_l _)) => -[/= ->]. Qed.

(** a minimiser fits the equation best among the spanned functions that meet the conditions *)
Lemma bestF (A : 'M[R]_(N, n)) c xi y :
  (forall xi : 'cV[R]_n, exists y, curveF jvp u cs phi E xi y /\ smoothF y /\ spannedF jvp u phi y /\ (forall k, List.In k cs -> meets y k) /\
     forall i : 'I_N, affine A c xi i 0 = Rminus (odeF co y (nth 0 (u_x u) i)) (q (nth 0 (u_x u) i))) ->
  (forall y, spannedF jvp u phi y -> (forall k, List.In k cs -> meets y k) -> exists xi : 'cV[R]_n, curveF jvp u cs phi E xi y) ->
  size (u_x u) = N -> minimises (affine A c) xi -> curveF jvp u cs phi E xi y ->
  (forall p, spannedF jvp u phi p -> (forall k, List.In k cs -> meets p k) ->
     Rle (misfitF co q y (u_x u)) (misfitF co q p (u_x u))) /\
  ((exists p, spannedF jvp u phi p /\ (forall k, List.In k cs -> meets p k) /\ forall t, List.In t (u_x u) -> odeF co p t = q t) ->
   forall t, List.In t (u_x u) -> odeF co y t = q t).
Proof.
move=> Hy Hp Hs Hm Hc.
have mis xj z : curveF jvp u cs phi E xj z -> norm2 (affine A c xj) = misfitF co q z (u_x u).
  move=> Hz; have [yj [Hj' [_ [_ [_ Hi]]]]] := Hy xj.
  by apply: norm2_misfitF => // i; rewrite Hi /odeF (odeF_ext z _ _ _ (curveF_ext Hz Hj')).
have Hb : forall p, spannedF jvp u phi p -> (forall k, List.In k cs -> meets p k) ->
     Rle (misfitF co q y (u_x u)) (misfitF co q p (u_x u)).
  move=> p Hlp Hmp; have [xp Hxp] := Hp p Hlp Hmp.
  by rewrite -(mis xi y Hc) -(mis _ _ Hxp); apply/RlebP; exact: (Hm xp).
split=> // -[p [Hp1 [Hp2 /misfitF_0 Hp3]]].
by apply/misfitF_0; have := Hb p Hp1 Hp2; have := misfitF_ge0 y (u_x u); rewrite Hp3; lra.
Qed.
End Ode.

(** ** C102 *)
(** Whatever the coefficients, the expression is a smooth function that meets the conditions exactly,
    and every combination of the kept basis functions and the switching functions that meets the
    conditions is the expression for some coefficients. *)
Theorem C102_conditions : forall jvp be bs N nC l deg x0 xf w b u cs phi E,
  scriptF jvp be bs N nC l deg x0 xf w b u cs phi E ->
  let n := Nat.sub (S deg) (List.length l) in
  (forall xi : 'cV[R]_n, exists y, curveF jvp u cs phi E xi y /\ smoothF y /\ spannedF jvp u phi y /\ forall k, List.In k cs -> meets y k) /\
  (forall y, spannedF jvp u phi y -> (forall k, List.In k cs -> meets y k) -> exists xi : 'cV[R]_n, curveF jvp u cs phi E xi y).
Proof.
move=> jvp be bs N nC l deg x0 xf w b u cs phi E HS n.
have [A [c [_ [_ [_ [H1 H2]]]]]] := @scriptF_facts unit _ _ _ _ _ _ _ _ _ _ _ _ _ _ [::] (fun _ => R0) _ HS (Nat.le_0_l _).
split; last exact: H2.
by move=> xi; have [y [Hc [Hs [Hsp [Hm _]]]]] := H1 xi; exists y.
Qed.
Print Assumptions C102_conditions.

(** LS gives the function that fits the equation best at the points among all of these; if one of them
    solves the equation at the points, so does the function LS gives. *)
Theorem C102_ls : forall (Ar : Type) jvp be bs N nC l deg x0 xf w b u cs phi co q E,
  scriptF jvp be bs N nC l deg x0 xf w b u cs phi E -> Peano.le (List.length co) (S E) ->
  let n := Nat.sub (S deg) (List.length l) in
  forall (jac : (seq (value R_realFieldType Ar n) -> 'cV[R]_N) -> seq (value R_realFieldType Ar n) -> 'M[R]_(N, n))
    (res : seq (value R_realFieldType Ar n) -> 'cV[R]_N) args J z consts s timer,
  differentiates jac -> runs_scriptF jvp u cs phi co q args res -> right_jac J args res -> valid_method s ->
  ascending consts -> List.Forall (fun k => Peano.le 1 k /\ Peano.le k (length args)) consts ->
  exists xi c y, vLS jac (Unk z) res args consts J s timer = Some (Unk xi, c) /\
    curveF jvp u cs phi E xi y /\ smoothF y /\ (forall k, List.In k cs -> meets y k) /\
    (forall p, spannedF jvp u phi p -> (forall k, List.In k cs -> meets p k) ->
       Rle (misfitF co q y (u_x u)) (misfitF co q p (u_x u))) /\
    ((exists p, spannedF jvp u phi p /\ (forall k, List.In k cs -> meets p k) /\ forall t, List.In t (u_x u) -> odeF co p t = q t) ->
     forall t, List.In t (u_x u) -> odeF co y t = q t).
Proof.
move=> Ar jvp be bs N nC l deg x0 xf w b u cs phi co q E HS Hco n jac res args J z consts s timer Hjac Hrun HJ Hs Ha Hc.
have [A [c [Hres [Hsz [_ [H1 H2]]]]]] := @scriptF_facts Ar _ _ _ _ _ _ _ _ _ _ _ _ _ _ co q _ HS Hco.
have Hr := Hres args res Hrun.
have [xi [EE Hmin]] := ls_R z timer Hjac Hr HJ Hs Ha Hc.
have [y [Hcu [Hsm [_ [Hm _]]]]] := H1 xi.
have [Hb He] := bestF H1 H2 Hsz Hmin Hcu.
by exists xi, (List.rev consts), y.
Qed.
Print Assumptions C102_ls.

(** NLLS, started where the residual is above the tolerance, gives as good a fit in at most two iterations. *)
Theorem C102_nlls : forall (Ar : Type) jvp be bs N nC l deg x0 xf w b u cs phi co q E,
  scriptF jvp be bs N nC l deg x0 xf w b u cs phi E -> Peano.le (List.length co) (S E) ->
  let n := Nat.sub (S deg) (List.length l) in
  forall (jac : (seq (value R_realFieldType Ar n) -> 'cV[R]_N) -> seq (value R_realFieldType Ar n) -> 'M[R]_(N, n))
    (res : seq (value R_realFieldType Ar n) -> 'cV[R]_N) args J z consts s timer printOut cond tol maxIter fuel,
  differentiates jac -> runs_scriptF jvp u cs phi co q args res -> right_jac J args res -> valid_method s ->
  ascending consts -> List.Forall (fun k => Peano.le 1 k /\ Peano.le k (length args)) consts ->
  0 <= tol -> tol < 1 -> Z.le 1 maxIter -> Z.le maxIter (Z.of_nat fuel) -> tol < v_maxabs (res (Unk z :: args)) ->
  exists xi k out y, fst (vNLLS jac fuel (Unk z) res args consts J cond None tol maxIter s timer printOut)
      = NReturns (NResult (Unk xi) (Z.of_nat k) out) /\ (0 < k <= 2)%N /\
    curveF jvp u cs phi E xi y /\ smoothF y /\ (forall k, List.In k cs -> meets y k) /\
    (forall p, spannedF jvp u phi p -> (forall k, List.In k cs -> meets p k) ->
       Rle (misfitF co q y (u_x u)) (misfitF co q p (u_x u))) /\
    ((exists p, spannedF jvp u phi p /\ (forall k, List.In k cs -> meets p k) /\ forall t, List.In t (u_x u) -> odeF co p t = q t) ->
     forall t, List.In t (u_x u) -> odeF co y t = q t).
Proof.
move=> Ar jvp be bs N nC l deg x0 xf w b u cs phi co q E HS Hco n jac res args J z consts s timer printOut cond tol maxIter fuel
  Hjac Hrun HJ Hs Ha Hc Ht0 Ht1 HM1 HM2 Hr0.
have [A [c [Hres [Hsz [Hdd [H1 H2]]]]]] := @scriptF_facts Ar _ _ _ _ _ _ _ _ _ _ _ _ _ _ co q _ HS Hco.
have Hr := Hres args res Hrun.
have Hn : (0 < n)%N by apply/ltP; rewrite /n; move: (List.length l) Hdd => dd; lia.
have [xi [k [out [EE [Hk Hmin]]]]] := nlls_R timer Hjac Hr HJ Hs Ha Hc printOut cond Hn Ht0 Ht1 HM1 HM2 Hr0.
have [y [Hcu [Hsm [_ [Hm _]]]]] := H1 xi.
have [Hb He] := bestF H1 H2 Hsz Hmin Hcu.
by exists xi, k, out, y.
Qed.
Print Assumptions C102_nlls.

(** y'' + exp(t) y = (exp(t) - 1) sin(t), y(0) = 0, y'(0) = 1, with two sine functions of an ELM, no
    function left out, three points and the switching functions cos(t) and sin(t): the solution sin(t)
    is a combination of them, so LS meets the conditions and the equation at the points *)
Example C102_case : exists u (xi : 'cV[R]_2) c y (res : seq (value R_realFieldType unit 2) -> 'cV[R]_3),
  let cs := [:: Cond 0 R0 R0; Cond 1 R0 R1] in let phi := [:: cos; sin] in
  let co := [:: exp; (fun _ => R0); (fun _ => R1)] in let q := fun t => Rmult (Rminus (exp t) R1) (sin t) in
  mk Cpp (UE Sin) 3 (NcInt (Z.of_nat 0)) 1 R0 R1 [:: R1; INR 2] [:: R0; R0] = Some u /\
  runs_scriptF rjvp u cs phi co q [::] res /\
  vLS (@diff_jac _ _ 3 2) (Unk 0) res [::] [::] None Lstsq false = Some (Unk xi, c) /\
  curveF rjvp u cs phi 2 xi y /\ y R0 = R0 /\ Derive y R0 = R1 /\
  forall t, List.In t (u_x u) -> Rplus (Derive_n y 2 t) (Rmult (exp t) (y t)) = Rmult (Rminus (exp t) R1) (sin t).
Proof.
have [||||u Hu] := @mk_some Cpp (UE Sin) 3 (NcInt (Z.of_nat 0)) [::] 1 R0 R1 [:: R1; INR 2] [:: R0; R0] erefl.
- by rewrite /=; lia.
- by move=> i [].
- by [].
- by lia.
pose cs := [:: Cond 0 R0 R0; Cond 1 R0 R1]; pose phi := [:: cos; sin].
pose co := [:: exp; (fun _ => R0); (fun _ => R1)]; pose q := fun t => Rmult (Rminus (exp t) R1) (sin t).
have Hx : R0 <> R1 by lra.
have sc : forall e t, ex_derive_n sin e t /\ ex_derive_n cos e t.
  move=> e t; have Hs : ProofELM.smooth Sin by [].
  have H e' t' : is_derive_n (ProofELM.gact Sin 0) e' t' (ProofELM.gact Sin e' t').
    by apply: (is_derive_n_chain (ProofELM.gact Sin)) => d x; exact: ProofELM.gact_deriv.
  have H' e' t' : is_derive_n (ProofELM.gact Sin 1) e' t' (ProofELM.gact Sin (S e') t').
    by apply: (is_derive_n_chain (fun d => ProofELM.gact Sin (S d))) => d x; exact: ProofELM.gact_deriv.
  case: e => [|e]; first by [].
  split; [apply: (ex_derive_n_ext (ProofELM.gact Sin 0)) => //; eexists; exact: (H (S e) t)|].
  apply: (ex_derive_n_ext (ProofELM.gact Sin 1)) => //; eexists; exact: (H' (S e) t).
have Ds t : Derive sin t = cos t by apply: is_derive_unique; exact: is_derive_sin.
have Dc t : Derive cos t = Ropp (sin t) by apply: is_derive_unique; exact: is_derive_cos.
have Hphi : switchingF cs phi.
  split=> //; split; first by move=> p [<-|[<-|[]]] e t; case: (sc e t).
  move=> [|[|i]] [|[|j]] k p //=; try by case: i.
  - by move=> [<-] [<-] /=; exact: cos_0.
  - by move=> [<-] [<-] /=; exact: sin_0.
  - by move=> _; case: j.
  - by move=> [<-] [<-] /=; rewrite -/(Derive cos R0) Dc sin_0; lra.
  - by move=> [<-] [<-] /=; rewrite -/(Derive sin R0) Ds cos_0.
  - by move=> _; case: j.
have HS : scriptF rjvp Cpp (UE Sin) 3 (NcInt (Z.of_nat 0)) [::] 1 R0 R1 [:: R1; INR 2] [:: R0; R0] u cs phi 2.
  split=> //.
  - exact: rjvp_ok.
  - by lia.
  - by split; [constructor|move=> i []].
  - by move=> c [<-|[<-|[]]] /=; lia.
have Hco : Peano.le (List.length co) 3 by rewrite /=; lia.
have [res Hrun] := @scriptF_runs unit _ _ _ _ _ _ _ _ _ _ _ _ _ _ co q _ HS Hco [::].
have Hv : valid_method Lstsq by [].
have Hj0 : right_jac None [::] res by [].
have [xi [c [y [E1 [E2 [_ [Hm [_ He]]]]]]]] := @C102_ls unit _ _ _ _ _ _ _ _ _ _ _ _ _ _ co q _ HS Hco
  (@diff_jac _ _ 3 2) res [::] None 0 [::] Lstsq false (@diff_jac_ok _ _ _ _) Hrun Hj0 Hv ltac:(constructor) ltac:(constructor).
exists u, xi, c, y, res; split; first exact: Hu.
split; first exact: Hrun.
split; first exact: E1.
split; first exact: E2.
split; first exact: (Hm (Cond 0 R0 R0) (or_introl erefl)).
split; first exact: (Hm (Cond 1 R0 R1) (or_intror (or_introl erefl))).
have Eq f t : odeF co f t = Rplus (Derive_n f 2 t) (Rmult (exp t) (f t)) by rewrite /odeF /co /=; lra.
move=> t Ht; rewrite -Eq; move: t Ht; apply: He.
have D2 t : Derive_n sin 2 t = Ropp (sin t).
  by rewrite /= (Derive_ext (Derive (fun x => sin x)) cos) // => s; exact: Ds.
exists sin; split; last split.
- exists (fun i => if i is O then R1 else R0), [:: R0; R0]; split=> // t.
  have [l [z [xs [El [_ [_ [_ [_ Eu]]]]]]]] := mk_inv _ _ _ _ _ _ _ _ _ _ Hu.
  have {}El : [::] = l by case: El.
  rewrite (uH_k rjvp rjvp_ok _ _ _ _ _ _ _ _ _ _ [:: t] 0 false Hu I (conj erefl erefl)); last first.
    by move=> _; rewrite (mk_nC _ _ _ _ _ _ _ _ _ _ [::] Hu erefl); split; [constructor|move=> i []].
  eexists; eexists; split; first reflexivity.
  split; first reflexivity.
  rewrite Eu -El /=.
  have -> : Rplus (Rmult (Rminus t R0) (Rdiv (Rminus R1 R0) (Rminus R1 R0))) R0 = t by field; lra.
  have -> z0 : ProofELM.ecol Sin [:: R1; Rplus R1 R1] [:: R0; R0] 0 0 z0 = sin z0.
    by rewrite /ProofELM.ecol /= Rmult_1_l; congr sin; lra.
  by lra.
- by move=> k [<-|[<-|[]]]; rewrite /meets /= ?sin_0 // -/(Derive sin R0) Ds cos_0.
- by move=> t _; rewrite Eq D2 /q; lra.
Qed.
