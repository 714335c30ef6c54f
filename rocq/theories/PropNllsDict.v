(** NLLS and NllsClass on dictionaries do what they do on the packed unknowns (C109). *)
From Coq Require List.
From Coq Require Import ZArith Lia.
From mathcomp Require Import all_ssreflect all_algebra.
From Verif Require Import Base ModelDict SpecDict ProofDict ProofDict3 ModelPe SpecPe ModelSolve ModelSolveDict SpecSolveDict ProofSolveDict
  ModelPinv SpecPinv ModelAffine SpecAffine PropAffine ModelAffineDict SpecAffineDict ProofAffineDict ModelNllsDict SpecNllsDict ProofNllsDict.
Set Implicit Arguments.
Unset Strict Implicit.
Unset Printing Implicit Defensive.
Import GRing.Theory Num.Theory.
Local Open Scope ring_scope.

Lemma to_array_ok (F : realFieldType) (K : Type) cl h (d : @tdict F K) c :
  contents h d = Some c -> entries_ok cl c -> exists a, c_toArray cl h d = Some a.
Proof.
move=> Hc [Hn]; rewrite /c_toArray; case: cl => H; first by rewrite (d_toArray_1d _ _ _ Hc Hn H); eexists.
by rewrite (r_toArray_ok _ _ _ Hc Hn); eexists.
Qed.

(** C109: take a TFCDict of one-dimensional arrays, or a TFCDictRobust of arrays of any shapes but
    (), and a residual of it; and take the residual that is the same function of all its entries
    packed in one vector.  NLLS from the dictionary and NLLS from the packed vector end in the same
    way: both return, after the same number of iterations and having printed the same lines, a
    dictionary with the keys and shapes of the start and the vector of its entries; or both raise;
    or both go on. *)
Theorem C109_nlls : forall (F : realFieldType) (K Ar : Type) (keq : K -> K -> bool) cl jacfwd m n jac h (d : @tdict F K) c args
    (res : seq (dvalue F K Ar) -> seq F) (vres : seq (value F Ar n) -> 'cV[F]_m) J vJ consts s tol maxIter timer printOut fuel,
  keq_ok keq -> List.NoDup (List.map fst (td_items d)) -> contents h d = Some c -> entries_ok cl c -> size (packed c) = n ->
  same_residual c args res vres -> same_jacobian jacfwd jac c args res vres J vJ ->
  ascending consts -> List.Forall (fun k => Peano.le 1 k /\ Peano.le k (length args)) consts ->
  let o := dNLLS keq cl 1 (fun x y => x - y) (@l_solve F) (@l_maxabs F) (@v_gt F) jacfwd fuel h d res (dargs args) consts J tol maxIter s timer printOut in
  let v := vNLLS jac fuel (Unk (pack n c)) vres (vargs args) consts vJ None None tol maxIter s timer printOut in
  same_outcome c (fst o) (fst v) /\ snd o = snd v.
Proof.
move=> F K Ar keq cl jacfwd m n jac h d c args res vres J vJ consts s tol maxIter timer printOut fuel Hk Hn Hc He Hs Hr HJ Ha Hb o v.
have [a Ea] := to_array_ok Hc He.
have Hnd : List.NoDup (List.map fst c) by have [_ <-] := contents_ld _ _ _ Hc.
rewrite /o /dNLLS Hc Ea; apply: nlls_rel => //; exact: ok_wf He.
Qed.
Print Assumptions C109_nlls.

(** The same for a run of NllsClass objects made without constant arguments, whatever unknowns and
    arguments they were made with. *)
Theorem C109_class : forall (F : realFieldType) (K Ar : Type) (keq : K -> K -> bool) cl jacfwd m n jac h (d : @tdict F K) c args
    (res : seq (dvalue F K Ar) -> seq F) (vres : seq (value F Ar n) -> 'cV[F]_m) J vJ h0 d0 args0 xi0 vargs0 s tol maxIter timer printOut fuel o vo,
  keq_ok keq -> List.NoDup (List.map fst (td_items d)) -> contents h d = Some c -> entries_ok cl c -> size (packed c) = n ->
  same_residual c args res vres -> same_jacobian jacfwd jac c args res vres J vJ ->
  dNllsClass_init keq cl (@l_solve F) jacfwd h0 d0 res args0 [::] J tol maxIter s timer printOut = Some o ->
  NllsClass_init (@v_pinv_dot F m n) (@v_pinv_dot F m n) jac xi0 vres vargs0 [::] vJ None None tol maxIter s timer printOut = Some vo ->
  same_outcome c (dNllsClass_run keq cl 1 (fun x y => x - y) (@l_maxabs F) (@v_gt F) fuel o h d (dargs args))
    (fst (NllsClass_run (@v_sub F Ar n) (@v_ones F Ar n) (@v_maxabs F m) (@v_maxabs F n) (@v_gt F) fuel vo (Unk (pack n c)) (vargs args))).
Proof.
move=> F K Ar keq cl jacfwd m n jac h d c args res vres J vJ h0 d0 args0 xi0 vargs0 s tol maxIter timer printOut fuel o vo Hk Hn Hc He Hs Hr HJ Eo Ev.
have [a Ea] := to_array_ok Hc He.
have Hnd : List.NoDup (List.map fst c) by have [_ <-] := contents_ld _ _ _ Hc.
rewrite /dNllsClass_run Hc Ea.
move: Eo; rewrite /dNllsClass_init; case: (contents h0 d0) => [c0|] //= Eo.
by apply: class_rel Eo Ev => //; exact: ok_wf He.
Qed.
Print Assumptions C109_class.

(** So everything known of NLLS on vectors holds on dictionaries.  For a residual that is affine in
    the entries: at most two iterations, none only if the start is good enough already, and the
    returned dictionary has the least residual of all of its form. *)
Theorem C109_affine : forall (F : realFieldType) (K Ar : Type) (keq : K -> K -> bool) cl jacfwd m h (d : @tdict F K) c args
    (res : seq (dvalue F K Ar) -> seq F) M b consts s tol maxIter timer printOut fuel,
  keq_ok keq -> List.NoDup (List.map fst (td_items d)) -> contents h d = Some c -> entries_ok cl c ->
  affine_on jacfwd (fun c' => res (DUnk c' :: dargs args)) c m M b ->
  valid_method s -> ascending consts -> List.Forall (fun k => Peano.le 1 k /\ Peano.le k (length args)) consts ->
  0 <= tol -> Z.le maxIter (Z.of_nat fuel) -> Peano.le 1 fuel ->
  exists c' k out,
    fst (dNLLS keq cl 1 (fun x y => x - y) (@l_solve F) (@l_maxabs F) (@v_gt F) jacfwd fuel h d res (dargs args) consts None tol maxIter s timer printOut)
      = NReturns (NResult (DUnk c') (Z.of_nat k) out) /\ (k <= 2)%N /\ same_form c c' /\
    ((0 < size (packed c))%N -> tol < 1 -> Z.le 1 maxIter -> (exists2 r, r \in res (DUnk c :: dargs args) & tol < `|r|) -> (0 < k)%N) /\
    ((0 < k)%N -> SpecAffineDict.best (fun c' => res (DUnk c' :: dargs args)) c').
Proof.
move=> F K Ar keq cl jacfwd m h d c args res M b consts s tol maxIter timer printOut fuel Hk Hn Hc He Haff Hs Ha Hb Ht HM Hf.
have W := ok_wf He.
set n := size (packed c).
pose A : 'M[F]_(m, n) := Amx m M c. pose bb : 'cV[F]_m := \col_i b i.
pose vres := fun l : seq (value F Ar n) => if l is Unk x :: _ then affine A bb x else 0.
have Er c' : same_form c c' -> res (DUnk c' :: dargs args) = of_col (affine A bb (pack n c')).
  move=> Fc; have [-> _] := Haff _ Fc.
  rewrite (res_affine _ _ _ Fc W); congr (of_col (affine _ _ _)); rewrite /vec packE //.
  by rewrite /n -!sizeE (form_len _ _ Fc W).
have colE k (v : 'cV[F]_k) : \col_i nth 0 (of_col v) i = v.
  by rewrite -[RHS](of_colK v); apply/matrixP=> i j; rewrite !mxE muln1 ord1 addn0.
have Hres : same_residual c args res vres.
  by move=> c' Fc; rewrite (Er _ Fc) size_of_col colE.
have Hjac : same_jacobian jacfwd (@diff_jac F Ar m n) c args res vres None None.
  move=> c' Fc; exists M; split; first by have [_] := Haff _ Fc.
  rewrite (@diff_jac_ok F Ar m n vres (vargs args) A bb) //.
  by apply/matrixP=> i j; rewrite AmxE mxE derivativesE (jrow_form _ _ Fc W).
have [Ho _] := C109_nlls s tol maxIter timer printOut fuel Hk Hn Hc He (erefl n) Hres Hjac Ha Hb.
have L2 : length (vargs args : seq (value F Ar n)) = length args by rewrite /vargs sizeE size_map.
have Hb2 := Hb; rewrite -L2 in Hb2.
have [x [k [out [E [Hk2 [Hpos Hsol]]]]]] := @C42_affine_one_step F Ar m n (@diff_jac F Ar m n) vres (vargs args) A bb None (pack n c) consts s timer printOut None tol maxIter fuel
  (@diff_jac_ok F Ar m n) (fun x => erefl) (fun j Ej => ltac:(discriminate Ej)) Hs Ha Hb2 Ht HM Hf.
rewrite E in Ho; move: Ho; case: (fst (dNLLS _ _ _ _ _ _ _ _ _ _ _ _ _ _ _ _ _ _ _ _)) => [[[c'|a] it o']||] //= [Fc [Ex [Eit Eo]]].
exists c', k, out; split; first by rewrite Eit Eo.
split=> //; split=> //; split.
  move=> H1 H2 H3 [r Hr1 Hr2]; apply: Hpos => //.
  have Hs0 : size (res (DUnk c :: dargs args)) = m by rewrite (Er _ (form_self W)) size_of_col.
  have -> : affine A bb (pack n c) = \col_(i < m) nth 0 (res (DUnk c :: dargs args)) i by rewrite (Er _ (form_self W)) colE.
  rewrite -(maxabsE Hs0).
  elim: (res _) Hr1 {Hs0} => //= y l IH; rewrite inE Order.TotalTheory.lt_maxr => /orP [/eqP <-|Hin]; first by rewrite Hr2.
  by rewrite IH ?orbT.
move=> Hk0; have [Hm _] := Hsol Hk0.
move=> c1 F1; rewrite (Er _ Fc).
have F2 : same_form c c1 by case: Fc F1 => [A1 [A2 _]] [A3 [A4 A5]]; split; [rewrite A3|split=> //; rewrite A4].
by rewrite (Er _ F2) !sumsq_of_col -Ex; apply: Hm.
Qed.
Print Assumptions C109_affine.

(** Outside these hypotheses: an empty dictionary raises; and so does a TFCDictRobust with an entry
    of shape (), if an iteration is made with the default Jacobian. *)
Theorem C109_raises : forall (F : realFieldType) (K Ar : Type) (keq : K -> K -> bool) jacfwd h (d : @tdict F K) c args
    (res : seq (dvalue F K Ar) -> seq F) consts s tol maxIter timer printOut fuel,
  contents h d = Some c ->
  (c = [::] -> forall cl J, fst (dNLLS keq cl 1 (fun x y => x - y) (@l_solve F) (@l_maxabs F) (@v_gt F) jacfwd fuel h d res (dargs args) consts J tol maxIter s timer printOut) = NRaises) /\
  (keq_ok keq -> List.NoDup (List.map fst (td_items d)) -> (exists k a, List.In (k, a) c /\ a_shape a = [::]) -> List.Forall (fun p => wf (snd p)) c ->
   valid_method s -> ascending consts -> List.Forall (fun k => Peano.le 1 k /\ Peano.le k (length args)) consts ->
   tol < 1 -> Z.le 1 maxIter -> Peano.le 1 fuel -> (exists2 r, r \in res (DUnk c :: dargs args) & tol < `|r|) ->
   fst (dNLLS keq Robust 1 (fun x y => x - y) (@l_solve F) (@l_maxabs F) (@v_gt F) jacfwd fuel h d res (dargs args) consts None tol maxIter s timer printOut) = NRaises).
Proof.
move=> F K Ar keq jacfwd h d c args res consts s tol maxIter timer printOut fuel Hc; split.
  move=> E0 cl J; rewrite /dNLLS Hc.
  have Ei : td_items d = [::].
    have [_ E] := contents_ld _ _ _ Hc; rewrite E0 in E; by case: (td_items d) E.
  suff -> : c_toArray cl h d = None by [].
  by rewrite /c_toArray; case: cl; [rewrite d_toArray_empty|rewrite /r_toArray Ei].
move=> Hk Hn [k [a [Hin Hsh]]] W Hs Ha Hb Ht1 HM Hf Hr.
have Hnd : List.NoDup (List.map fst c) by have [_ <-] := contents_ld _ _ _ Hc.
have Hne : c <> [::] by move=> E; rewrite E in Hin.
rewrite /dNLLS Hc /c_toArray (r_toArray_ok _ _ _ Hc Hne) /NLLS.
rewrite (_ : solve_fun _ _ s = Some (d_solve (@l_solve F))); last by case: (s) Hs => // /(_ erefl).
have L1 : length (dargs args : seq (dvalue F K Ar)) = length args by rewrite /dargs sizeE size_map.
have Hb1 := Hb; rewrite -L1 in Hb1.
have [wl [El [Hwl [_ Al]]]] := ProofPe.wire_asc (DUnk c) (dargs args) consts (nlls_closure (d_jac keq Robust jacfwd) res None (d_solve (@l_solve F))) Ha Hb1.
have [wr [Er [Hwr [_ Arr]]]] := ProofPe.wire_asc (DUnk c) (dargs args) consts res Ha Hb1.
rewrite El Er /=.
have Hml (l : seq F) : (exists2 r, r \in l & tol < `|r|) -> tol < l_maxabs l.
  case=> r; rewrite /l_maxabs; elim: l => //= y l IH; rewrite inE Order.TotalTheory.lt_maxr => /orP [/eqP <- ->|Hi] // Hlt.
  by rewrite IH ?orbT.
have Hm := Hml _ Hr.
have Hpos : (0 < size (packed c))%N.
  apply: leq_trans (_ : (size (a_data a) <= _)%N).
    have Wa : wf a by move/List.Forall_forall: W => /(_ _ Hin).
    by move: Wa; rewrite /wf Hsh /= sizeE => ->.
  elim: (c) Hin => //= -[k1 a1] l IH [[_ ->]|Hi]; rewrite /packed /= size_cat; first exact: leq_addr.
  by apply: leq_trans (IH Hi) _; apply: leq_addl.
have Ho : tol < l_maxabs (List.repeat (1 : F) (List.length (packed c))).
  apply: Hml; exists 1; last by rewrite normr1.
  by rewrite sizeE; case: (size _) Hpos => //= n' _; rewrite inE eqxx.
have Hl it out : Z.lt it maxIter ->
    nlls_loop (d_sub keq Robust (fun x y => x - y)) (@l_maxabs F) (d_maxabs (@l_maxabs F)) (@v_gt F) fuel (w_fun wl) (w_fun wr) None tol maxIter printOut (w_args wl)
      (NVal (DUnk c) (d_ones 1 (DUnk c)) it out) = Raises.
  move=> Hit; rewrite /nlls_loop; case: (fuel) Hf => [|f _]; first by move=> H0; lia.
  rewrite /= /cond_ /=.
  have -> : w_fun wr (DUnk c :: w_args wl) = Some (res (DUnk c :: dargs args)) by move: (Hwr (DUnk c)); rewrite /wired_eval Arr -Al.
  rewrite /= /v_gt Hm Ho.
  have -> : Z.ltb it maxIter by apply/Z.ltb_lt.
  rewrite /= /body_ /=.
  have -> : w_fun wl (DUnk c :: w_args wl) = Some None.
    move: (Hwl (DUnk c)); rewrite /wired_eval /nlls_closure /d_jac /c_J => ->.
    by rewrite (J_robust_0d keq Hk c _ k a Hnd Hin Hsh).
  by [].
rewrite /nlls_run; case: timer; first by rewrite Hl //; lia.
by rewrite Hl //; lia.
Qed.
Print Assumptions C109_raises.

(** A residual that is not affine: the product of the entry under 7 and the entry under 4, less 1,
    times an argument. *)
Section Case.
Notation Q := [realFieldType of rat].
Notation view := (seq (nat * @arr Q)).
Let c0 : view := [:: (7%N, flat [:: 2%:R]); (4%N, flat [:: 3%:R])].
Let at_ (c : view) i : Q := nth 0 (packed c) i.
Let res (l : seq (dvalue Q nat Q)) : seq Q := if l is [:: DUnk c; DArg a] then [:: at_ c 0 * at_ c 1 - a] else [::].
Let vres (l : seq (value Q Q 2)) : 'cV[Q]_1 := if l is [:: Unk x; Arg a] then const_mx (x 0 0 * x 1 0 - a) else 0.
Let jacfwd (_ : view -> seq Q) (c : view) : view :=
  List.map (fun p : nat * @arr Q => (fst p, block 1 (fun _ (k : nat) _ => if Nat.eqb k 7 then at_ c 1 else at_ c 0) p)) c.
Let jac (_ : seq (value Q Q 2) -> 'cV[Q]_1) (l : seq (value Q Q 2)) : 'M[Q]_(1, 2) :=
  if l is Unk x :: _ then \row_j (if j == 0 then x 1 0 else x 0 0) else 0.
Lemma case_forms c : same_form c0 c -> exists x y, c = [:: (7%N, flat [:: x]); (4%N, flat [:: y])].
Proof.
case: c => [|[k1 [s1 d1]] [|[k2 [s2 d2]] [|? ?]]] [] //= [-> ->] [[-> ->]] W.
have W1 := List.Forall_inv W; have W2 := List.Forall_inv (List.Forall_inv_tail W).
by case: d1 W1 {W} => [|x [|? ?]] // _; case: d2 W2 => [|y [|? ?]] // _; exists x, y.
Qed.
Example C109_case : exists d,
  contents [::] d = Some c0 /\ entries_ok Plain c0 /\ List.NoDup (List.map fst (td_items d)) /\
  same_residual c0 [:: 1] res vres /\ same_jacobian jacfwd jac c0 [:: 1] res vres None None /\
  forall fuel printOut, snd (vNLLS jac fuel (Unk (pack 2 c0)) vres (vargs [:: 1]) [:: 1%N] None None None 0 (Z.of_nat 50) Pinv false printOut) = [:: 1%N] /\
  same_outcome c0
    (fst (dNLLS Nat.eqb Plain 1 (fun x y => x - y) (@l_solve Q) (@l_maxabs Q) (@v_gt Q) jacfwd fuel [::] d res (dargs [:: 1]) [:: 1%N] None 0 (Z.of_nat 50) Pinv false printOut))
    (fst (vNLLS jac fuel (Unk (pack 2 c0)) vres (vargs [:: 1]) [:: 1%N] None None None 0 (Z.of_nat 50) Pinv false printOut)).
Proof.
have Hk : keq_ok Nat.eqb by move=> x y; apply: PeanoNat.Nat.eqb_eq.
have He : entries_ok Plain c0 by split=> //; repeat constructor.
have Hn : List.NoDup (List.map fst c0) by repeat constructor => //=; case=> // [].
have [d [Ed [Cd [Hn' _]]]] := rebuild_ok Hk Hn He.
have Hr : same_residual c0 [:: 1] res vres.
  move=> c /case_forms [x [y ->]]; split=> //; rewrite /vres /res /=.
  by apply/matrixP=> i j; rewrite !mxE !ord1 /=.
have HJ : same_jacobian jacfwd jac c0 [:: 1] res vres None None.
  move=> c /case_forms [x [y ->]]; exists (fun _ (k : nat) _ => if Nat.eqb k 7 then y else x); split=> //.
  by apply/matrixP=> i j; rewrite !mxE; case: j => [[|[|[]]]].
exists d; do 5 (split=> //); move=> fuel printOut; split=> //.
have Ha : ascending [:: 1%N] by repeat constructor.
have Hb : List.Forall (fun k => Peano.le 1 k /\ Peano.le k (length [:: (1 : Q)])) [:: 1%N] by repeat constructor.
by have [H _] := C109_nlls Pinv 0 (Z.of_nat 50) false printOut fuel Hk Hn' Cd He (erefl 2%N) Hr HJ Ha Hb.
Qed.
End Case.
