(** C110: systems of differential equations with products, and nonlinear equations in pieces, solved with
    constrained expressions that share unknowns, a TFCDict and NLLS. *)
From Coq Require Import ZArith Lia Reals Lra Sorting.Sorted.
From Coquelicot Require Import Coquelicot.
From mathcomp Require Import all_ssreflect all_algebra.
From Verif Require Import Base ModelDict SpecDict ProofDict ModelPe SpecPe ModelSolve ModelSolveDict SpecSolveDict ProofSolveDict
  ModelPinv SpecPinv ModelAffine SpecAffine ModelAffineDict SpecAffineDict ProofAffineDict ModelNllsDict SpecNllsDict ProofNllsDict PropNllsDict
  SpecNewton ProofNewton PropNewton SpecIdle ProofNewton5 PropIdle PropNllsNewton.
From Verif Require Import Numbers ModelBFPy SpecBasis ModelELM SpecELM ModelUtfc SpecUtfc ProofUtfc ProofTab ProofIndep SpecColl ProofColl ProofRecover
  RealStruct SpecRecover PropRecover ModelOde SpecOde ProofOde PropOde SpecPde ProofPdeNl ProofOdeNl2 PropOdeNl ModelOdeAny SpecOdeAny ProofOdeAny PropOdeAny
  ModelOdeSys SpecOdeSys ProofOdeSys PropOdeSys ModelOdeSysNl SpecOdeSysNl ProofOdeSysNl.
Set Implicit Arguments.
Unset Strict Implicit.
Unset Printing Implicit Defensive.
Import GRing.Theory Num.Theory.
Local Open Scope ring_scope.

Lemma nth_comb (Q : Type) (F : realFieldType) (f : F -> F -> F -> F) (g1 g2 g3 : Q -> F) l j : f 0 0 0 = 0 ->
  nth 0 [seq f (g1 q) (g2 q) (g3 q) | q <- l] j = f (nth 0 [seq g1 q | q <- l] j) (nth 0 [seq g2 q | q <- l] j) (nth 0 [seq g3 q | q <- l] j).
Proof. by move=> H; elim: l j => [|q l IH] [|j] //=. Qed.
Lemma derivatives_map (F : realFieldType) (K : Type) (D : nat -> K -> nat -> F) c r :
  derivatives D c r = [seq D r q.1 q.2 | q <- seq.flatten [seq [seq (p.1, j) | j <- iota 0 (size (a_data p.2))] | p <- c]].
Proof. by elim: c => [|p c IH] //=; rewrite /derivatives /= map_cat -/(derivatives D c r) IH -map_comp. Qed.
Lemma nth_listE (T : Type) (d : T) l i : List.nth i l d = nth d l i.
Proof. by elim: l i => [|x l IH] [|i] //=. Qed.

Lemma mul_diff (F : realFieldType) k n (A : 'M[F]_(k, n)) (x y : 'cV[F]_n) (v : 'cV[F]_k) i :
  (A *m (x - y)) i 0 = (A *m x + v) i 0 - (A *m y + v) i 0.
Proof.
have -> : A *m (x - y) = (A *m x + v) - (A *m y + v) by rewrite mulmxBr opprD addrACA subrr addr0.
by rewrite [LHS]mxE [X in _ + X]mxE.
Qed.

Section Main.
Variables (jvp : (R -> R) -> R -> R -> R) (K : Type) (keq : K -> K -> bool) (fs : seq (sfun (K:=K))) (eqs : seq neqn) (E : nat).
Variables (cp : seq (K * @arr R)) (p : nat -> R -> R).
Local Notation view := (seq (K * @arr R)).
Hypotheses (Hk : keq_ok keq) (Hn : List.NoDup (List.map fst cp)) (Hok : @entries_ok R_realFieldType K Plain cp).
Hypothesis HS : system jvp fs (parts eqs) cp E.
Local Notation n := (size (packed cp)).
Local Notation m := (size (jobs eqs)).
Local Notation Y c := (Yc jvp keq c fs).
Let W := ok_wf Hok.

Lemma unpack (x : 'cV[R]_n) : exists c, same_form cp c /\ @pack R_realFieldType K n c = x.
Proof.
have [c [_ [Fc Ec]]] := @sub_ok R_realFieldType K unit keq Hk Plain n cp (@pack R_realFieldType K n cp - x) Hn Hok erefl.
by exists c; split=> //; rewrite Ec opprB addrC subrK.
Qed.
Lemma aff_row k (M : nat -> K -> nat -> R) (b : nat -> R) c (i : 'I_k) : same_form cp c ->
  (@Amx R_realFieldType K k M cp *m @pack R_realFieldType K n c + \col_i b i) i 0 = Rplus (dotv (M i) c) (b i).
Proof.
move=> Fc; have Es : size (packed c) = n by rewrite -!sizeE (form_len _ _ Fc W).
have := res_affine (F:=R_realFieldType) k M b Fc W; rewrite affine_dotv /vec (packE Es) => H.
have := congr1 (fun l => (\col_(i < k) nth (0 : R_realFieldType) l i) i 0) H; rewrite col_of_col /affine => <-.
by rewrite mxE -[List.map _ _]/(map _ _) seqE (nth_map 0%N) ?size_iota // nth_iota.
Qed.

Lemma bound i f e lo hi : List.nth_error fs i = Some f -> exists B : R, Rle 0 B /\ forall c1 c2 x, same_form cp c1 -> same_form cp c2 ->
  @within R_realFieldType n (pack n c1 - pack n c2) x -> forall t, Rle lo t -> Rle t hi ->
  Rle (Rabs (Rminus (Derive_n (Y c1 i) e t) (Derive_n (Y c2 i) e t))) (Rmult B x).
Proof.
move=> Ef; have G := good_all Hk Hn HS (List.nth_error_In _ _ Ef).
case: (Rle_dec lo hi) => Hlh; last by exists R0; split; [exact: Rle_refl|move=> c1 c2 x _ _ _ t H1 H2; lra].
have YE c : Y c i = Ysem jvp keq c f by rewrite /Yc Ef.
have Hsm c : same_form cp c -> smoothF (Derive_n (Y c i) e).
  by move=> Fc; apply: smooth_derive; have [_ [_ H]] := sys_curves Hk Hn HS Fc; exact: (H i f Ef).
have Hb c : same_form cp c -> exists B : R, Rle 0 B /\ forall t, Rle lo t -> Rle t hi -> Rle (Rabs (Derive_n (Y c i) e t)) B.
  by move=> Fc; have [B [H1 H2]] := smooth_bounded _ lo hi Hlh (Hsm c Fc); exists B; split=> // t ? ?; apply: H2.
have [u0 [F0 E0]] := unpack 0; have [B0 [HB0 Hb0]] := Hb _ F0.
have Hw t : exists w : 'I_n -> R, (forall c1 c2, same_form cp c1 -> same_form cp c2 ->
    Rminus (Derive_n (Y c1 i) e t) (Derive_n (Y c2 i) e t) = \sum_j w j * ((pack n c1 - pack n c2) j 0)).
  have [M [b HM]] := good_aff_n jvp keq Hk cp Hn f E e t G.
  exists (fun j => @Amx R_realFieldType K 1 (fun _ => M) cp 0 j) => c1 c2 F1 F2.
  rewrite !YE (HM _ F1) (HM _ F2).
  rewrite -(@aff_row 1 (fun _ => M) (fun _ => b) c1 0 F1) -(@aff_row 1 (fun _ => M) (fun _ => b) c2 0 F2).
  rewrite RsE.
  transitivity ((@Amx R_realFieldType K 1 (fun _ => M) cp *m (pack n c1 - pack n c2)) 0 0); last by rewrite mxE.
  by rewrite (mul_diff _ _ _ (\col_i (fun _ => b) i)).
pose P (j : 'I_n) (Bj : R) : Prop := Rle 0 Bj /\ forall t (w : 'I_n -> R), Rle lo t -> Rle t hi ->
    (forall c1 c2, same_form cp c1 -> same_form cp c2 -> Rminus (Derive_n (Y c1 i) e t) (Derive_n (Y c2 i) e t) = \sum_j w j * ((pack n c1 - pack n c2) j 0) :> R_realFieldType) ->
    Rle (Rabs (w j)) Bj.
have [B HB] : exists B : 'I_n -> R, forall j, P j (B j).
  apply: (fin_all_exists (U := fun _ => R) (P := P)) => j.
  have [uj [Fj Ej]] := unpack (\col_i (i == j)%:R); have [Bj [HBj Hbj]] := Hb _ Fj.
  exists (Rplus Bj B0); split; first by apply: Rplus_le_le_0_compat.
  move=> t w Hl Hh Hw'; have := Hw' _ _ Fj F0; rewrite Ej E0 subr0 (bigD1 j) //= big1; last first.
    by move=> j' /negbTE Hj'; rewrite mxE Hj' mulr0.
  rewrite mxE eqxx mulr1 addr0 => <-.
  apply: Rle_trans (Rabs_triang _ _) _; rewrite Rabs_Ropp.
  by apply: Rplus_le_compat; [exact: Hbj|exact: Hb0].
exists (\sum_j B j : R_realFieldType); split.
  by apply/RlebP; apply: (@sumr_ge0 R_realFieldType) => j _; apply/RlebP; case: (HB j).
move=> c1 c2 x F1 F2 Hx t Hl Hh; have [w Ew] := Hw t.
rewrite (Ew _ _ F1 F2); set v := pack n c1 - pack n c2 in Hx *.
have H : `|\sum_j w j * v j 0 : R_realFieldType| <= (\sum_j B j : R_realFieldType) * x.
  apply: Order.POrderTheory.le_trans (ler_norm_sum _ _ _) _.
  rewrite mulr_suml; apply: ler_sum => j _; rewrite normrM; apply: (ler_pmul (normr_ge0 _) (normr_ge0 _) _ (Hx j)).
  by apply/RlebP; have [_ H] := HB j; exact: (H t w Hl Hh Ew).
by move/RlebP: H.
Qed.

Variables (res : view -> seq R) (jacfwd : (view -> seq R) -> view -> view) (s : method_).
Hypothesis Hres : forall c, same_form cp c -> residualN jvp keq c fs eqs = Some (res c).
Hypothesis Hjac : differentiatesD keq jacfwd cp.
Hypothesis Hp : curvesS jvp keq cp fs E p.
Hypothesis Hsol : forall e, List.In e eqs -> solves_neqn p e.
Hypothesis Hiso : isolatedS jvp fs eqs p.
Hypothesis Hs : valid_method s.

Lemma p_is i f : List.nth_error fs i = Some f -> forall t, p i t = Y cp i t.
Proof.
move=> Ef t; have [H _] := sys_curves Hk Hn HS (form_self W).
by have := H i f 0%N t Ef (Nat.le_0_l _); rewrite (Hp t Ef (Nat.le_0_l _)) => -[].
Qed.
Lemma goodE : goodN jvp keq cp fs eqs E. Proof. exact: good_sys. Qed.
Lemma term_fun e ts q : List.In e eqs -> List.In ts [:: n_lin e; n_a e; n_b e] -> List.In q ts -> exists f, List.nth_error fs q.1 = Some f.
Proof.
move=> He Ht Hq; have [H _] := goodN_in jvp keq cp fs eqs E e ts goodE He Ht q Hq.
by case Ef: (List.nth_error fs q.1) => [f|]; [exists f|move/List.nth_error_None: Ef; lia].
Qed.
Lemma sys_p e ts t : List.In e eqs -> List.In ts [:: n_lin e; n_a e; n_b e] -> system_at ts p t = system_at ts (Y cp) t.
Proof. by move=> He Ht; apply: system_ext => q Hq x; have [f Ef] := term_fun He Ht Hq; exact: (p_is Ef). Qed.
Lemma sys_diff e ts t c : same_form cp c -> List.In e eqs -> List.In ts [:: n_lin e; n_a e; n_b e] ->
  system_at ts (fun i x => Rminus (Y c i x) (p i x)) t = Rminus (system_at ts (Y c) t) (system_at ts (Y cp) t).
Proof.
move=> Fc He Ht; rewrite -system_minus.
  by apply: system_ext => q Hq x; have [f Ef] := term_fun He Ht Hq; rewrite (p_is Ef).
move=> q Hq; have [f Ef] := term_fun He Ht Hq.
by split; [have [_ [_ H]] := sys_curves Hk Hn HS Fc|have [_ [_ H]] := sys_curves Hk Hn HS (form_self W)]; exact: (H _ f Ef).
Qed.

Local Notation res1 := (fun l : seq (dvalue R K unit) => if l is DUnk c :: _ then res c else [::]).
Lemma main : exists radius c : R, [/\ Rlt 0 radius, Rlt 0 c &
  forall i f e lo hi, List.nth_error fs i = Some f -> exists B C : R, [/\ Rle 0 B, Rle 0 C &
  forall h (d : @tdict R K) z, List.NoDup (List.map fst (td_items d)) -> contents h d = Some z -> same_form cp z -> near radius cp z ->
  forall timer printOut tol maxIter fuel, Rlt 0 tol -> Z.le maxIter (Z.of_nat fuel) -> Peano.le 1 fuel ->
  exists c' k out y,
    fst (dNLLS keq Plain (1 : R_realFieldType) Rminus (@l_solve R_realFieldType) (@l_maxabs R_realFieldType) (@v_gt R_realFieldType) jacfwd fuel h d
           res1 [::] [::] None tol maxIter s timer printOut) = NReturns (NResult (DUnk c') (Z.of_nat k) out) /\
    [/\ same_form cp c', curvesS jvp keq c' fs E y, allowed jvp fs y,
      (forall t, Rle lo t -> Rle t hi -> Rle (Rabs (Rminus (Derive_n (y i) e t) (Derive_n (p i) e t))) (Rdiv B (pow 2 (2 ^ k)))) &
      forall K', Rlt tol 1 -> Rle 2 (Rmult (Rmult tol c) (pow 2 (2 ^ K'))) -> Z.lt (Z.of_nat K'.+1) maxIter ->
        (k <= K'.+1)%N /\ forall t, Rle lo t -> Rle t hi -> Rle (Rabs (Rminus (Derive_n (y i) e t) (Derive_n (p i) e t))) (Rmult C tol)]]].
Proof.
have [MA [a HA]] := rows_ok jvp keq Hk cp Hn fs eqs E n_lin goodE (fun e => or_introl erefl).
have [MB [b HB]] := rows_ok jvp keq Hk cp Hn fs eqs E n_a goodE (fun e => or_intror (or_introl erefl)).
have [MD [d HD]] := rows_ok jvp keq Hk cp Hn fs eqs E n_b goodE (fun e => or_intror (or_intror (or_introl erefl))).
pose jb i := List.nth i (jobs eqs) job0.
pose a' i : R := Rminus (a i) (n_q (jb i).1 (jb i).2).
pose A := @Amx R_realFieldType K m MA cp; pose B := @Amx R_realFieldType K m MB cp; pose D := @Amx R_realFieldType K m MD cp.
pose r := @prods R_realFieldType m n A B D (\col_i a' i) (\col_i b i) (\col_i d i).
pose jf := @dprods R_realFieldType m n A B D (\col_i a' i) (\col_i b i) (\col_i d i).
have Hjb i : (i < m)%N -> List.In (jb i).1 eqs /\ List.In (jb i).2 (n_pts (jb i).1).
  by move=> /ltP Hi; apply/in_jobs; rewrite -surjective_pairing; exact: List.nth_In.
have HA' i c : (i < m)%N -> same_form cp c -> Rplus (dotv (MA i) c) (a' i) = Rminus (system_at (n_lin (jb i).1) (Y c) (jb i).2) (n_q (jb i).1 (jb i).2).
  by move=> /ltP Hi Fc; rewrite (HA i Hi c Fc) /a' -/(jb i); lra.
have rowE c (i : 'I_m) : same_form cp c -> r (pack n c) i 0 = Rminus (nonlin_at (jb i).1 (Y c) (jb i).2) (n_q (jb i).1 (jb i).2).
  move=> Fc; rewrite mxE !aff_row // (HA' i c) // /nonlin_at -(HB i) //; last by apply/ltP.
  by rewrite -(HD i) //; [rewrite -RmE -RaE /jb; lra|apply/ltP].
have resE c : same_form cp c -> res c = of_col (r (pack n c)).
  move=> Fc; have := Hres Fc; rewrite (residualN_ok jvp keq cp fs eqs E c goodE Fc) => -[<-].
  apply: (@eq_from_nth _ 0) => [|i]; first by rewrite size_of_col /residN -[List.map _ _]/(map _ _) size_map.
  rewrite /residN -[List.map _ _]/(map _ _) size_map => Hi.
  rewrite (nth_map job0) // -nth_listE -/(jb i).
  by have := congr1 (fun M : 'cV_m => M (Ordinal Hi) 0) (col_of_col (F:=R_realFieldType) (r (pack n c))); rewrite mxE /= => ->; rewrite rowE.
have sizeR c : same_form cp c -> List.length (res c) = m by move=> Fc; rewrite (resE c Fc) sizeE size_of_col.
pose DD c i k j : R := Rplus (Rplus (MA i k j) (Rmult (Rplus (dotv (MB i) c) (b i)) (MD i k j))) (Rmult (MB i k j) (Rplus (dotv (MD i) c) (d i))).
have HJ c : same_form cp c -> exists D0, jac_of m D0 c (jacfwd res c) /\ jf (pack n c) = \matrix_(i, j) nth (0 : R_realFieldType) (derivatives D0 c i) j.
  move=> Fc; exists (DD c); split.
    apply: (Hjac sizeR Fc) => i k a0 j /ltP Hi Hin Hj.
    have Hnc : List.NoDup (List.map fst c) by rewrite (proj1 Fc).
    apply: (is_derive_ext (fun x : R => Rplus (Rplus (Rplus (dotv (MA i) c) (Rmult x (MA i k j))) (a' i))
      (Rmult (Rplus (Rplus (dotv (MB i) c) (Rmult x (MB i k j))) (b i)) (Rplus (Rplus (dotv (MD i) c) (Rmult x (MD i k j))) (d i))))).
      move=> x; have Fx := nudge_form keq cp k j x c Fc.
      rewrite -!(dotv_nudge keq Hk _ k j x a0 c Hnc Hin Hj) nth_listE (resE _ Fx).
      have := congr1 (fun M : 'cV_m => M (Ordinal Hi) 0) (col_of_col (F:=R_realFieldType) (r (pack n (nudge keq k j x c)))); rewrite mxE /= => ->.
      by rewrite mxE !aff_row.
    by rewrite /DD; auto_derive => //; ring.
  apply/matrixP => i j; rewrite [LHS]mxE [RHS]mxE !AmxE.
  have E3 M : nth 0 (jrow M cp i) j = nth 0 (derivatives M c i) j :> R_realFieldType by rewrite derivativesE (jrow_form _ _ Fc W).
  rewrite !E3 !aff_row // !derivatives_map.
  pose g (x y z : R_realFieldType) : R_realFieldType := x + (Rplus (dotv (MB i) c) (b i)) * z + y * (Rplus (dotv (MD i) c) (d i)).
  by rewrite (@nth_comb _ _ g _ _ _ _ j) // /g mulr0 mul0r !addr0.
have [L [HL0 HL]] := @C99_products R_realFieldType m n A B D (\col_i a' i) (\col_i b i) (\col_i d i) (pack n cp) 1.
have F0 := form_self W.
have I1 e : List.In (n_lin e) [:: n_lin e; n_a e; n_b e] by left.
have I2 e : List.In (n_a e) [:: n_lin e; n_a e; n_b e] by right; left.
have I3 e : List.In (n_b e) [:: n_lin e; n_a e; n_b e] by right; right; left.
have Hr0 : r (pack n cp) = 0.
  apply/matrixP => i j; rewrite ord1 [RHS]mxE rowE //; have [H1 H2] := Hjb i (ltn_ord i).
  have := Hsol H1 H2; rewrite /nonlin_at (sys_p _ H1 (I1 _)) (sys_p _ H1 (I2 _)) (sys_p _ H1 (I3 _)) => ->; rewrite -[RHS]/R0; lra.
have Hker c : same_form cp c -> jf (pack n cp) *m (pack n c - pack n cp) = 0 -> forall i f, List.nth_error fs i = Some f -> forall t, Y c i t = p i t.
  move=> Fc Hh; have [_ [Hal _]] := sys_curves Hk Hn HS Fc.
  apply: (Hiso Hal) => e t He Ht; rewrite /linearised_at !(sys_diff _ Fc He) // !(sys_p _ He) //.
  have [i0 [/ltP Hi0 Ei0]] := List.In_nth _ _ job0 (proj2 (in_jobs eqs e t) (conj He Ht)).
  pose i := Ordinal Hi0; have Ei : jb i = (e, t) by [].
  have := congr1 (fun M : 'cV[R]_m => M i 0) Hh; rewrite dprods_dir [RHS]mxE.
  have dif M (v : nat -> R) : (@Amx R_realFieldType K m M cp *m (pack n c - pack n cp)) i 0 =
      (Amx m M cp *m pack n c + \col_i v i) i 0 - (Amx m M cp *m pack n cp + \col_i v i) i 0.
    exact: mul_diff.
  rewrite (dif MA a') (dif MB b) (dif MD d) !aff_row //.
  have := HA' i c Hi0 Fc; have := HA' i cp Hi0 F0; rewrite Ei /= => -> ->.
  have := HB i0 (elimT ltP Hi0) c Fc; have := HB i0 (elimT ltP Hi0) cp F0; rewrite Ei0 /= => <- <-.
  have := HD i0 (elimT ltP Hi0) c Fc; have := HD i0 (elimT ltP Hi0) cp F0; rewrite Ei0 /= => <- <-.
  by rewrite -!RsE -!RaE -!RmE -[0]/R0 => EE; lra.
have Hidle (k : 'cV[R]_n) : jf (pack n cp) *m k = 0 -> @idle R_realFieldType m n r jf k.
  move=> Hk0; have [c [Fc Ec]] := unpack (pack n cp + k).
  have Hd0 : pack n c - pack n cp = k by rewrite Ec addrC addKr.
  have Ey : forall i f, List.nth_error fs i = Some f -> forall t, Y c i t = Y cp i t.
    by move=> i f Ef t; rewrite (Hker c Fc _ i f Ef) ?Hd0 // (p_is Ef).
  have Hz M (v : nat -> R) sel : (forall e, List.In (sel e) [:: n_lin e; n_a e; n_b e]) ->
      (forall i, Peano.lt i m -> forall c, same_form cp c -> system_at (sel (jb i).1) (Y c) (jb i).2 = Rplus (dotv (M i) c) (v i)) ->
      @Amx R_realFieldType K m M cp *m k = 0.
    move=> Hsel HM; apply/matrixP => i j; rewrite ord1 [RHS]mxE -Hd0.
    have -> : (@Amx R_realFieldType K m M cp *m (pack n c - pack n cp)) i 0 = (Amx m M cp *m pack n c + \col_i v i) i 0 - (Amx m M cp *m pack n cp + \col_i v i) i 0.
      exact: mul_diff.
    have /ltP Hi := ltn_ord i; have [He _] := Hjb i (ltn_ord i).
    rewrite !aff_row // -!HM // (@system_ext _ (Y c) (Y cp)) ?subrr // => q Hq x.
    by have [f Ef] := term_fun He (Hsel _) Hq; exact: (Ey _ f Ef).
  by apply: idle_prods; [exact: (Hz MA a n_lin)|exact: (Hz MB b n_a)|exact: (Hz MD d n_b)].
have Hall c : same_form cp c -> res1 (DUnk c :: @dargs R_realFieldType K unit [::]) = of_col (r (pack n c)) /\
     exists D0, jac_of m D0 c (jacfwd (fun v => res1 (DUnk v :: @dargs R_realFieldType K unit [::])) c) /\ jf (pack n c) = \matrix_(i, j) nth (0 : R_realFieldType) (derivatives D0 c i) j.
  by move=> Fc; split; [exact: resE|exact: HJ].
have [radius [c [C [Hrad Hcp HC Hgo]]]] := @C109_newton R_realFieldType K unit keq Plain jacfwd m n cp [::] res1 r jf [::] s 1 L
  Hk Hok erefl Hall Hs (Sorting.Sorted.SSorted_nil _) (List.Forall_nil _) HL Hr0 HL0 ltr01 Hidle.
have Hc' : Rlt 0 c by move/RltbP: Hcp.
have HC' : Rlt 0 C by move/RltbP: HC.
exists radius, c; split=> //; first by move/RltbP: Hrad.
move=> i f e lo hi Ef; have [B1 [HB1 Hbnd]] := @bound i f e lo hi Ef.
exists (Rdiv B1 c), (Rmult B1 C); split.
- by apply: Rmult_le_pos => //; left; apply: Rinv_0_lt_compat.
- by apply: Rmult_le_pos => //; left.
move=> h dd z Hnd Hcz Fz Hz timer printOut tol maxIter fuel Htol HM Hfl.
have Hz' : @within R_realFieldType n (pack n z - pack n cp) radius.
  by move=> j; apply/RlebP; rewrite !mxE -!nth_listE; exact: Hz.
have [xs' [_ Ek' _ Hgo']] := Hgo h dd z Hnd Hcz Fz Hz'.
have [cx [Fx Ex]] := unpack xs'; rewrite -Ex in Ek' Hgo'.
have Ep := Hker cx Fx Ek' i f Ef.
have Htol' : 0 < (tol : R_realFieldType) by apply/RltbP.
have [c' [k [out [E1 F1 E3 E4]]]] := Hgo' timer printOut tol maxIter fuel Htol' HM Hfl.
have Hcl x x' : @within R_realFieldType n (pack n c' - pack n cx) x -> Rmult B1 x = x' ->
    forall t, Rle lo t -> Rle t hi -> Rle (Rabs (Rminus (Derive_n (Y c' i) e t) (Derive_n (p i) e t))) x'.
  move=> Hw <- t Hl Hh; have := Hbnd _ _ _ F1 Fx Hw t Hl Hh.
  by rewrite (Derive_n_ext _ _ e t Ep).
have [Hcu [Hal _]] := sys_curves Hk Hn HS F1.
exists c', k, out, (Y c'); split; first exact: E1.
split=> //.
- apply: Hcl E3 _.
  have Hpw : Rlt 0 (pow 2 (2 ^ k)) by apply: pow_lt; lra.
  rewrite RinvE RpowE; last exact: Rmult_lt_0_compat.
  rewrite -RmE Rinv_mult_distr; [|exact: Rgt_not_eq|exact: Rgt_not_eq].
  by rewrite /Rdiv Rmult_assoc.
move=> K' Ht1 H2 HM'.
have Ht1' : (tol : R_realFieldType) < 1 by apply/RltbP.
have H2' : 2%:R <= (tol : R_realFieldType) * c * 2%:R ^+ (2 ^ K') by apply/RlebP; rewrite RpowE R2E.
have [Hk' Hw] := E4 K' Ht1' H2' HM'; split=> //.
by apply: Hcl Hw _; rewrite -RmE -Rmult_assoc.
Qed.
End Main.

(** ** C110 *)
(** Let the functions [p] be what the script's expressions give for the dictionary [cp], let them solve the
    equations at their points, and let the equations linearised at [p] have no other solution there
    among the families of functions the script allows.  Then NLLS from any dictionary close to [cp]
    returns after [k] iterations a dictionary of the same form whose functions meet all conditions and
    agree wherever they share an unknown, and are within [B / 2^(2^k)] of [p], with derivatives of any
    order, on any interval.  With enough iterations allowed it stops by itself, within a multiple of
    [tol].  Other dictionaries may give [p] as well. *)
Theorem C110_converges : forall jvp (K : Type) (keq : K -> K -> bool) fs eqs E cp p res jacfwd s,
  keq_ok keq -> List.NoDup (List.map fst cp) -> cp <> [::] -> List.Forall (fun p => is1d (snd p)) cp ->
  system jvp fs (parts eqs) cp E -> (forall c, same_form cp c -> residualN jvp keq c fs eqs = Some (res c)) -> differentiatesD keq jacfwd cp ->
  curvesS jvp keq cp fs E p -> (forall e, List.In e eqs -> solves_neqn p e) -> isolatedS jvp fs eqs p -> valid_method s ->
  exists radius c : R, [/\ Rlt 0 radius, Rlt 0 c &
  forall i f e lo hi, List.nth_error fs i = Some f -> exists B C : R, [/\ Rle 0 B, Rle 0 C &
  forall h (d : @tdict R K) z, List.NoDup (List.map fst (td_items d)) -> contents h d = Some z -> same_form cp z -> near radius cp z ->
  forall timer printOut tol maxIter fuel, Rlt 0 tol -> Z.le maxIter (Z.of_nat fuel) -> Peano.le 1 fuel ->
  exists c' k out y,
    fst (dNLLS keq Plain (1 : R_realFieldType) Rminus (@l_solve R_realFieldType) (@l_maxabs R_realFieldType) (@v_gt R_realFieldType) jacfwd fuel h d
           (fun l : seq (dvalue R K unit) => if l is DUnk c :: _ then res c else [::]) [::] [::] None tol maxIter s timer printOut)
      = NReturns (NResult (DUnk c') (Z.of_nat k) out) /\
    [/\ same_form cp c', curvesS jvp keq c' fs E y, allowed jvp fs y,
      (forall t, Rle lo t -> Rle t hi -> Rle (Rabs (Rminus (Derive_n (y i) e t) (Derive_n (p i) e t))) (Rdiv B (pow 2 (2 ^ k)))) &
      forall K', Rlt tol 1 -> Rle 2 (Rmult (Rmult tol c) (pow 2 (2 ^ K'))) -> Z.lt (Z.of_nat K'.+1) maxIter ->
        (k <= K'.+1)%N /\ forall t, Rle lo t -> Rle t hi -> Rle (Rabs (Rminus (Derive_n (y i) e t) (Derive_n (p i) e t))) (Rmult C tol)]]].
Proof. move=> jvp K keq fs eqs E cp p res jacfwd s Hk Hn Hne H1 HS Hr Hj Hp Hsol Hiso Hs; exact: (main Hk Hn (conj Hne H1) HS Hr Hj Hp Hsol Hiso Hs). Qed.
Print Assumptions C110_converges.

(** Such a dictionary exists for every family of functions the script allows that solves the equations,
    and the script's residual is defined for every dictionary of the form. *)
Theorem C110_reached : forall jvp (K : Type) (keq : K -> K -> bool) fs eqs E (c : seq (K * @arr R)) p,
  keq_ok keq -> List.NoDup (List.map fst c) -> system jvp fs (parts eqs) c E ->
  (allowed jvp fs p -> exists cp, same_form c cp /\ curvesS jvp keq cp fs E p) /\
  (forall c', same_form c c' -> exists y r, curvesS jvp keq c' fs E y /\ residualN jvp keq c' fs eqs = Some r /\
     ((forall x, List.In x r -> x = R0) <-> forall e, List.In e eqs -> solves_neqn y e)).
Proof.
move=> jvp K keq fs eqs E c p Hk Hn HS; split.
  by move=> Hp; have [c' [H1 [H2 _]]] := sys_reached Hk Hn HS Hp; exists c'.
move=> c' Fc; have [Hcu _] := sys_curves Hk Hn HS Fc; exists (Yc jvp keq c' fs), (residN eqs (Yc jvp keq c' fs)); split=> //; split.
  by apply: (residualN_ok jvp keq c fs eqs E c' _ Fc); exact: good_sys.
rewrite /residN; split=> H.
  move=> e He t Ht.
  have := H _ (List.in_map (fun q => Rminus (nonlin_at q.1 (Yc jvp keq c' fs) q.2) (n_q q.1 q.2)) _ _ (proj2 (in_jobs eqs e t) (conj He Ht))).
  by rewrite /=; lra.
move=> x /List.in_map_iff [[e t] [<- /in_jobs [He Ht]]] /=; rewrite (H e He t Ht); lra.
Qed.
Print Assumptions C110_reached.

(** y' + y z' = 1 and z = 1, with y(0) = z(0) unknown; Chebyshev polynomials of degree one, two points.  NLLS from any dictionary
    close to the one of y = 1 + t, z = 1 gives functions that agree exactly at 0 and are close to these. *)
Example C110_case : exists u cp res (radius c C : R),
  let one := fun t => Rplus R1 (Rmult R0 t) in let zero := fun _ : R => R0 in let ones := fun _ : R => R1 in
  let fs := [:: SFun 0%N u [:: SCond 0 R0 (Entry 2%N)] [:: one]; SFun 1%N u [:: SCond 0 R0 (Entry 2%N)] [:: one]] in
  let eqs := [:: NEqn (u_x u) [:: (0%N, [:: zero; ones])] [:: (0%N, [:: ones])] [:: (1%N, [:: zero; ones])] ones;
                 NEqn (u_x u) [:: (1%N, [:: ones])] [::] [::] ones] in
  mk Cpp (UB CP) 2 (NcInt (Z.of_nat 1)) 1 R0 R1 [::] [::] = Some u /\
  List.map fst cp = [:: 0%N; 1%N; 2%N] /\ (forall c', same_form cp c' -> residualN rjvp Nat.eqb c' fs eqs = Some (res c')) /\
  [/\ Rlt 0 radius, Rlt 0 c & forall h (d : @tdict R nat) z (tol : R), List.NoDup (List.map fst (td_items d)) -> contents h d = Some z -> same_form cp z -> near radius cp z ->
  Rlt 0 tol -> Rlt tol 1 -> Rle 2 (Rmult (Rmult tol c) (pow 2 (2 ^ 8))) ->
  exists c' k out (y : nat -> R -> R),
    fst (dNLLS Nat.eqb Plain (1 : R_realFieldType) Rminus (@l_solve R_realFieldType) (@l_maxabs R_realFieldType) (@v_gt R_realFieldType) (deriveD Nat.eqb) 10 h d
           (fun l : seq (dvalue R nat unit) => if l is DUnk c :: _ then res c else [::]) [::] [::] None tol 10 Pinv false false)
      = NReturns (NResult (DUnk c') (Z.of_nat k) out) /\
    [/\ (k <= 9)%N, curvesS rjvp Nat.eqb c' fs 1 y, y 0%N R0 = y 1%N R0 &
        forall t, Rle 0 t -> Rle t 1 -> Rle (Rabs (Rminus (y 0%N t) (Rplus 1 t))) (Rmult C tol)]].
Proof.
have [||||u Hu] := @mk_some Cpp (UB CP) 2 (NcInt (Z.of_nat 1)) [:: Z0] 1 R0 R1 [::] [::] erefl.
- by rewrite /=; lia.
- by move=> i [<-|[]]; lia.
- by left.
- by lia.
pose one := fun t => Rplus R1 (Rmult R0 t); pose zero := fun _ : R => R0; pose ones := fun _ : R => R1.
pose f1 := SFun 0%N u [:: SCond 0 R0 (Entry 2%N)] [:: one]; pose f2 := SFun 1%N u [:: SCond 0 R0 (Entry 2%N)] [:: one].
pose e1 := NEqn (u_x u) [:: (0%N, [:: zero; ones])] [:: (0%N, [:: ones])] [:: (1%N, [:: zero; ones])] ones.
pose e2 := NEqn (u_x u) [:: (1%N, [:: ones])] [::] [::] ones.
pose fs := [:: f1; f2]; pose eqs := [:: e1; e2].
pose c0 : seq (nat * @arr R) := [:: (0%N, Arr_ [:: 1%N] [:: R0]); (1%N, Arr_ [:: 1%N] [:: R0]); (2%N, Arr_ [:: 1%N] [:: R0])].
have Hk : keq_ok Nat.eqb by move=> x y; exact: Nat.eqb_eq.
have Hn : List.NoDup (List.map fst c0) by rewrite /=; repeat constructor => /=; intuition discriminate.
have S1 : switchingF (List.map plain (f_cs f1)) [:: one].
  split=> //; split.
    by move=> q [<-|[]]; exact: (proj1 (lin_smooth _ _)).
  move=> [|i] [|j] k q //=; try by case: i.
  - by move=> [<-] [<-] /=; rewrite /one; lra.
  - by move=> _; case: j.
have HS c : same_form c0 c -> system rjvp fs (parts eqs) c 1.
  move=> [K1 [K2 _]]; case: c K1 K2 => [|[k0 a0] [|[k1 a1] [|[k2 a2] [|x l]]]] // [E0 E1 E2] [F0 F1 F2]; rewrite {}E0 {}E1 {}E2.
  split.
  - by rewrite /=; repeat constructor => /=; intuition discriminate.
  - have HP f : f = f1 \/ f = f2 -> piece rjvp f 1 1.
      move=> Hf; have [E1 [E2 E3]] : f_u f = u /\ f_cs f = f_cs f1 /\ f_phi f = [:: one] by case: Hf => ->.
      exists Cpp, (UB CP), 2%N, (NcInt (Z.of_nat 1)), [:: Z0], 1%N, R0, R1, [::], [::]; split=> //.
      rewrite E1 E2 E3; split=> //; first exact: rjvp_ok.
      + by lra.
      + by split; [repeat constructor => /=; intuition discriminate|move=> i [<-|[]]; rewrite /=; lia].
      + by move=> k [<-|[]] /=; lia.
    move=> f [<-|[<-|[]]].
      by exists 1%N; split; [apply: HP; left|exists a0; split=> //; left].
    by exists 1%N; split; [apply: HP; right|exists a1; split=> //; right; left].
  - move=> f s k [<-|[<-|[]]] [<-|[]] //= [<-]; (split; last by move=> /=; intuition discriminate); by exists a2; split=> //; right; right; left.
  - move=> e t; rewrite /parts /=.
    by move=> [<-|[<-|[<-|[<-|[<-|[<-|[]]]]]]] //= [<-|[]] /=; lia.
have W0 : List.Forall (fun q => wf (snd q)) c0 by repeat constructor.
have HS0 := HS c0 (form_self (F:=R_realFieldType) W0).
have H2 : Peano.le 2 2 by lia.
have Hx : Rlt R0 R1 by lra.
have [h0 [HH [_ [_ [Hpol [Hrep [HN [Hnd _]]]]]]]] := rows0 _ rjvp_ok _ _ _ _ _ _ _ _ _ _ Hu ltac:(discriminate) H2 Hx.
have lin y : spannedF rjvp u [:: one] y -> exists v w, forall t, y t = Rplus v (Rmult w t).
  move=> [a [r [Hl Hy]]]; have [l [Hll El]] := Hpol a.
  exists (Rplus (List.nth 0 l R0) (List.nth 0 r R0)), (List.nth 1 l R0) => t.
  have [M [row [E1 [E2 ->]]]] := Hy t; rewrite HH in E1; move: E1 => [E1]; rewrite -E1 /= in E2; move: E2 => [<-].
  rewrite El; case: r Hl {Hy} => [|r0 [|r1 r]] //= _; case: l Hll {El} => [|l0 [|l1 [|l2 l]]] /= Hll; rewrite /one; try lra; lia.
have [x1 [x2 [Ex Hne]]] : exists x1 x2, u_x u = [:: x1; x2] /\ x1 <> x2.
  case: (u_x u) HN Hnd => [|x1 [|x2 [|x3 l]]] // _ Hnd'; exists x1, x2; split=> //; move=> E; rewrite E in Hnd'.
  by inversion Hnd' as [|? ? Hi _]; apply: Hi; left.
pose p i : R -> R := if i is O then (fun t => Rplus R1 (Rmult R1 t)) else one.
have span q : (exists v w, forall t, q t = Rplus v (Rmult w t)) -> spannedF rjvp u [:: one] q.
  move=> [v [w Hq]].
  have [|a [r [Hl Hr]]] := Hrep [:: v; w]; first by [].
  exists a, [:: List.nth 0 r R0]; split=> // t; exists (Mat 1 1 [:: h0 0%N t]), (h0 0%N t); split; first exact: HH.
  split=> //; rewrite Hq; have := Hr t; rewrite /=; case: r Hl {Hr} => [|r0 [|r1 r]] /= Hl; rewrite /one; try lra; lia.
have Hal : allowed rjvp fs p.
  exists (fun _ => R1) => -[|[|i]] f; last by case: i.
  - move=> [<-]; split; first by apply: span; exists R1, R1.
    by move=> s [<-|[]] /=; lra.
  - move=> [<-]; split; first by apply: span; exists R1, R0.
    by move=> s [<-|[]] /=; rewrite /one; lra.
have [cp [Fcp [Hcp _]]] := sys_reached Hk Hn HS0 Hal.
have Fk : List.map fst cp = [:: 0%N; 1%N; 2%N] by exact: (proj1 Fcp).
have Hncp : List.NoDup (List.map fst cp) by rewrite Fk; exact: Hn.
have HSp := HS cp Fcp.
have G := good_sys Hk Hncp HSp.
pose res c' := odflt [::] (residualN rjvp Nat.eqb c' fs eqs).
have Hr c' : same_form cp c' -> residualN rjvp Nat.eqb c' fs eqs = Some (res c').
  by move=> H; rewrite /res (residualN_ok rjvp Nat.eqb cp fs eqs 1 c' G H).
have Hne0 : cp <> [::] by move=> E; rewrite E in Fk.
have [_ H1] : @entries_ok R_realFieldType nat Plain cp.
  by apply: (form_ok (F:=R_realFieldType) Fcp); split=> //; repeat constructor.
have od0 q t : odeF [:: ones] q t = q t by rewrite /odeF /= /ones; lra.
have od1 q t : odeF [:: zero; ones] q t = Derive q t.
  change (Rplus (Rmult R0 (q t)) (Rplus (Rmult R1 (Derive q t)) R0) = Derive q t); lra.
have Dl v w t : Derive (fun s => Rplus v (Rmult w s)) t = w by exact: (proj2 (lin_smooth v w)).
have Hsol e : List.In e eqs -> solves_neqn p e.
  move=> [<-|[<-|[]]] t _; rewrite /nonlin_at /= ?od0 ?od1 /p /one ?Dl /ones; lra.
have Hiso : isolatedS rjvp fs eqs p.
  move=> y [val Hy] Hlin.
  have [Sp1 M1] := Hy 0%N f1 erefl; have [Sp2 M2] := Hy 1%N f2 erefl.
  have [v1 [w1 Y1]] := lin _ Sp1; have [v2 [w2 Y2]] := lin _ Sp2.
  have E1 := M1 _ (or_introl erefl); have E2 := M2 _ (or_introl erefl); rewrite /= Y1 in E1; rewrite /= Y2 in E2.
  have D1 t : Derive (fun s => Rminus (y 0%N s) (p 0%N s)) t = Rminus w1 R1.
    rewrite (Derive_ext _ (fun s => Rplus (Rminus v1 R1) (Rmult (Rminus w1 R1) s))); first exact: Dl.
    by move=> s; rewrite Y1 /p; lra.
  have D2 t : Derive (fun s => Rminus (y 1%N s) (p 1%N s)) t = w2.
    rewrite (Derive_ext _ (fun s => Rplus (Rminus v2 R1) (Rmult w2 s))); first exact: Dl.
    by move=> s; rewrite Y2 /p /one; lra.
  have L1 t : List.In t (u_x u) -> Rplus (Rminus w1 R1) (Rmult (Rplus R1 t) w2) = R0.
    move=> Ht; have := Hlin e1 t (or_introl erefl) Ht; rewrite /linearised_at /= !od0 !od1 D1 D2 /p /one Dl; lra.
  have L2 t : List.In t (u_x u) -> Rplus v2 (Rmult w2 t) = R1.
    move=> Ht; have := Hlin e2 t (or_intror (or_introl erefl)) Ht; rewrite /linearised_at /= !od0 Y2 /p /one; lra.
  have A1 := L1 x1; have A2 := L1 x2; have A3 := L2 x1; rewrite Ex in A1 A2 A3.
  have {}A1 := A1 (or_introl erefl); have {}A2 := A2 (or_intror (or_introl erefl)); have {}A3 := A3 (or_introl erefl).
  have Z2 : w2 = R0.
    have : Rmult (Rminus x1 x2) w2 = R0 by lra.
    by case/Rmult_integral => // ?; exfalso; apply: Hne; lra.
  rewrite Z2 in A1 A3.
  have V1 : v1 = R1 by lra.
  have W1 : w1 = R1 by lra.
  have V2 : v2 = R1 by lra.
  move=> [|[|i]] f; last by case: i.
  - by move=> _ t; rewrite Y1 /p V1 W1.
  - by move=> _ t; rewrite Y2 /p /one Z2 V2.
have [radius [c [Hrad Hc Hgo]]] := @C110_converges rjvp nat Nat.eqb fs eqs 1 cp p res (deriveD Nat.eqb) Pinv Hk Hncp Hne0 H1 HSp Hr
  (deriveD_ok Nat.eqb cp) Hcp Hsol Hiso ltac:(by []).
have [B [C [_ HC Hrun]]] := Hgo 0%N f1 0%N R0 R1 erefl.
exists u, cp, res, radius, c, C; split; first exact: Hu.
split; first exact: Fk.
split; first exact: Hr.
split=> // h d z tol Hd Hz Fz Hnear Ht0 Ht1 Hbig.
have [c' [k [out [y [E1 [F1 Hcu [val Hv] _ Hstop]]]]]] := Hrun h d z Hd Hz Fz Hnear false false tol (Zpos 10) 10%N Ht0 ltac:(lia) ltac:(lia).
have [|Hk9 Hcl] := Hstop 8%N Ht1 Hbig; first by lia.
exists c', k, out, y; split; first exact: E1.
split=> //.
  by have [_ M1] := Hv 0%N f1 erefl; have [_ M2] := Hv 1%N f2 erefl; have /= -> := M1 _ (or_introl erefl); have /= -> := M2 _ (or_introl erefl).
move=> t H3 H4; have := Hcl t H3 H4; rewrite /= /p.
have -> : Rplus R1 (Rmult R1 t) = Rplus 1 t by lra.
by [].
Qed.
