(** C112: systems of nonlinear differential equations with unknown numbers, solved with constrained
    expressions that share unknowns, a TFCDict and NLLS. *)
From Coq Require Import ZArith Lia Reals Lra Sorting.Sorted.
From Coquelicot Require Import Coquelicot.
From mathcomp Require Import all_ssreflect all_algebra.
From Verif Require Import Base ModelDict SpecDict ProofDict ModelPe SpecPe ModelSolve ModelSolveDict SpecSolveDict ProofSolveDict
  ModelPinv SpecPinv ModelAffine SpecAffine ModelAffineDict SpecAffineDict ProofAffineDict ModelNllsDict SpecNllsDict ProofNllsDict PropNllsDict
  SpecNewton ProofNewton PropNewton SpecIdle ProofNewton5 PropIdle PropNllsNewton.
From Verif Require Import Numbers ModelBFPy SpecBasis ModelELM SpecELM ModelUtfc SpecUtfc ProofUtfc ProofTab ProofIndep SpecColl ProofColl ProofRecover
  RealStruct SpecRecover PropRecover ModelOde SpecOde ProofOde PropOde SpecPde ProofPdeNl ProofOdeNl2 PropOdeNl ModelOdeAny SpecOdeAny ProofOdeAny PropOdeAny
  ModelOdeSys SpecOdeSys ProofOdeSys PropOdeSys ModelOdeSysNl SpecOdeSysNl ProofOdeSysNl PropOdeSysNl ModelOdeSysG SpecOdeSysG ProofOdeSysG.
Set Implicit Arguments.
Unset Strict Implicit.
Unset Printing Implicit Defensive.
Import GRing.Theory Num.Theory.
Local Open Scope ring_scope.

Section Main.
Variables (jvp : (R -> R) -> R -> R -> R) (K : Type) (keq : K -> K -> bool) (fs : seq (sfun (K:=K))) (eqs : seq (geqn (K:=K))) (E : nat).
Variables (cp : seq (K * @arr R)) (p : nat -> R -> R) (q : K -> R).
Local Notation view := (seq (K * @arr R)).
Hypotheses (Hk : keq_ok keq) (Hn : List.NoDup (List.map fst cp)) (Hok : @entries_ok R_realFieldType K Plain cp).
Hypothesis HS : system jvp fs (linsG eqs) cp E.
Hypothesis Hnum : forall k, List.In k (numbersG eqs) -> holds cp k 1.
Local Notation n := (size (packed cp)).
Local Notation m := (size (jobsG eqs)).
Local Notation Y c := (Yc jvp keq c fs).
Local Notation V c := (fun k => get keq c k 0%N).
Let W := ok_wf Hok.

Lemma HS0 : system jvp fs (parts [::]) cp E.
Proof. by case: HS => H1 H2 H3 _; split. Qed.
Lemma dotv_diff M (c1 c2 : view) : same_form cp c1 -> same_form cp c2 ->
  Rminus (dotv M c1) (dotv M c2) = (@Amx R_realFieldType K 1 (fun _ => M) cp *m (pack n c1 - pack n c2)) 0 0.
Proof.
move=> F1 F2; rewrite (@mul_diff _ _ _ _ _ _ (\col_i (fun _ => R0) i)).
by rewrite (@aff_row K cp Hok 1 (fun _ => M) (fun _ => R0) c1 0 F1) (@aff_row K cp Hok 1 (fun _ => M) (fun _ => R0) c2 0 F2) -RsE; lra.
Qed.
Lemma dotv_diff_row k M (c1 c2 : view) (i : 'I_k) : same_form cp c1 -> same_form cp c2 ->
  (@Amx R_realFieldType K k M cp *m (pack n c1 - pack n c2)) i 0 = Rminus (dotv (M i) c1) (dotv (M i) c2).
Proof.
move=> F1 F2; rewrite (@mul_diff _ _ _ _ _ _ (\col_i (fun _ => R0) i)).
by rewrite (@aff_row K cp Hok k M (fun _ => R0) c1 i F1) (@aff_row K cp Hok k M (fun _ => R0) c2 i F2) -RsE; lra.
Qed.
Lemma within_near (c1 c2 : view) d : Rle 0 d -> same_form cp c1 -> same_form cp c2 -> @within R_realFieldType n (pack n c2 - pack n c1) d -> near d c1 c2.
Proof.
move=> Hd F1 F2 H i.
have L c : same_form cp c -> size (packed c) = n by move=> Fc; rewrite -!sizeE (form_len _ _ Fc W).
case: (ltnP i n) => Hi.
  by have := H (Ordinal Hi); rewrite !mxE -!nth_listE => /RlebP.
rewrite !nth_listE !nth_default ?(L c1 F1) ?(L c2 F2) // Rminus_eq_0 Rabs_R0 //.
Qed.
Lemma near_within (c1 c2 : view) d : near d c1 c2 -> @within R_realFieldType n (pack n c2 - pack n c1) d.
Proof. by move=> H j; apply/RlebP; rewrite !mxE -!nth_listE; exact: H. Qed.
Lemma lip M : exists B, Rle 0 B /\ forall x y d, same_form cp x -> same_form cp y -> near d x y -> Rle (Rabs (Rminus (dotv M y) (dotv M x))) (Rmult B d).
Proof.
pose w := @Amx R_realFieldType K 1 (fun _ => M) cp.
exists (\sum_j `|w 0 j|); split; first by apply/RlebP; apply: (@sumr_ge0 R_realFieldType) => j _; exact: normr_ge0.
move=> x y d Fx Fy Hd; rewrite (dotv_diff M Fy Fx) mxE.
have H : `|\sum_j w 0 j * (pack n y - pack n x) j 0 : R_realFieldType| <= (\sum_j `|w 0 j| : R_realFieldType) * d.
  apply: Order.POrderTheory.le_trans (ler_norm_sum _ _ _) _.
  rewrite mulr_suml; apply: ler_sum => j _; rewrite normrM; apply: ler_wpmul2l; [exact: normr_ge0|exact: (near_within Hd)].
by move/RlebP: H.
Qed.
Lemma agree_all (a : atree (K:=K)) c1 c2 : (forall M, dotv M c1 = dotv M c2) -> aagree a c1 c2.
Proof. by move=> H; elim: a => //= *; split. Qed.
Lemma pack_dotv (c1 c2 : view) M : same_form cp c1 -> same_form cp c2 -> @pack R_realFieldType K n c1 = pack n c2 -> dotv M c1 = dotv M c2.
Proof.
move=> F1 F2 Ep; have := dotv_diff M F1 F2; rewrite Ep subrr mulmx0 mxE -[0]/R0; lra.
Qed.

Definition unp (x : 'cV[R]_n) : view := spread cp (@of_col R_realFieldType n x).
Lemma unp_ok x : same_form cp (unp x) /\ @pack R_realFieldType K n (unp x) = x.
Proof.
have [|F P] := spread_ok cp W (@of_col R_realFieldType n x); first by rewrite !sizeE size_of_col.
by split=> //; apply/matrixP => i j; rewrite ord1 !mxE P; have := congr1 (fun M : 'cV_n => M i 0) (col_of_col (F:=R_realFieldType) x); rewrite mxE.
Qed.
Lemma Gd f : List.In f fs -> good jvp keq cp f E. Proof. by move=> Hf; exact: (good_all Hk Hn HS Hf). Qed.
Lemma Hfits e : List.In e eqs -> fits keq cp fs E (g_lhs e).
Proof.
move=> He; split.
  move=> ts t Hts Ht; apply: (sy_eqs HS (e := SEqn (g_pts e) ts (fun _ => R0))) => //.
  by apply/List.in_flat_map; exists e; split=> //; apply/List.in_map_iff; exists ts.
by move=> k Hi; apply: holds_has => //; apply: Hnum; apply/List.in_flat_map; exists e.
Qed.
Lemma num_bound : exists B, Rle 0 B /\ forall k, List.In k (numbersG eqs) -> forall c1 c2 x, same_form cp c1 -> same_form cp c2 ->
  Rle 0 x -> near x c1 c2 -> Rle (Rabs (Rminus (V c2 k) (V c1 k))) (Rmult B x).
Proof.
elim: (numbersG eqs) Hnum => [|k l IH] H; first by exists R0; split=> //; exact: Rle_refl.
have [k' Hi|B [HB Hb]] := IH; first by apply: H; right.
have [M [b Hm]] := number_aff keq Hk cp Hn k (holds_has Hk Hn (H k (or_introl erefl))).
have [B' [HB' Hb']] := lip M.
exists (Rplus B B'); split; first by lra.
move=> k0 Hi c1 c2 x F1 F2 Hx Hnr.
have P1 := Rmult_le_pos _ _ HB Hx; have P2 := Rmult_le_pos _ _ HB' Hx.
case: Hi => [<-|Hi]; last by have := Hb k0 Hi c1 c2 x F1 F2 Hx Hnr; lra.
rewrite (Hm c1 F1) (Hm c2 F2); have := Hb' _ _ _ F1 F2 Hnr.
have -> : Rminus (Rplus (dotv M c2) b) (Rplus (dotv M c1) b) = Rminus (dotv M c2) (dotv M c1) by lra.
lra.
Qed.

Variables (res : view -> seq R) (jacfwd : (view -> seq R) -> view -> view) (s : method_).
Hypothesis Hres : forall c, same_form cp c -> residualG jvp keq c fs eqs = Some (res c).
Hypothesis Hjac : differentiatesD keq jacfwd cp.
Hypothesis Hp : curvesS jvp keq cp fs E p.
Hypothesis Hq : entriesG (numbersG eqs) cp q.
Hypothesis Hsol : forall e, List.In e eqs -> solves_geqn p q e.
Hypothesis Hreg : forall e t, List.In e eqs -> List.In t (g_pts e) -> regular (g_lhs e) p q t.
Hypothesis Hiso : isolatedG jvp fs eqs p q.
Hypothesis Hs : valid_method s.

Lemma p_isG i f : List.nth_error fs i = Some f -> forall t, p i t = Y cp i t.
Proof.
move=> Ef t; have [H _] := sys_curves Hk Hn HS (form_self W).
by have := H i f 0%N t Ef (Nat.le_0_l _); rewrite (Hp t Ef (Nat.le_0_l _)) => -[].
Qed.
Lemma q_is k : List.In k (numbersG eqs) -> q k = V cp k.
Proof. by move=> Hi; have [a [Ha [_ Ed]]] := Hq Hi; rewrite (get_in keq Hk cp k a Hn Ha) Ed. Qed.
(** expressions depend only on the functions and numbers of the script *)
Definition inner (e : nexp (K:=K)) : Prop :=
  (forall ts t, List.In ts (lins e) -> List.In t ts -> exists f, List.nth_error fs (fst t) = Some f) /\ forall k, List.In k (numbers e) -> List.In k (numbersG eqs).
Lemma inner_app a b : (forall ts t, List.In ts (lins a ++ lins b) -> List.In t ts -> exists f, List.nth_error fs (fst t) = Some f) /\
  (forall k, List.In k (numbers a ++ numbers b) -> List.In k (numbersG eqs)) -> inner a /\ inner b.
Proof.
move=> [H1 H2]; split; split.
- by move=> ts t Hi; apply: H1; apply/List.in_app_iff; left; exact: Hi.
- by move=> k Hi; apply: H2; apply/List.in_app_iff; left.
- by move=> ts t Hi; apply: H1; apply/List.in_app_iff; right; exact: Hi.
- by move=> k Hi; apply: H2; apply/List.in_app_iff; right.
Qed.
Lemma inner_eq e : List.In e eqs -> inner (g_lhs e).
Proof.
move=> He; have [H1 H2] := Hfits He; split.
  move=> ts t Hts Ht; have [H _] := H1 ts t Hts Ht.
  by case Ef: (List.nth_error fs t.1) => [f|]; [exists f|move/List.nth_error_None: Ef; lia].
by move=> k Hi; apply/List.in_flat_map; exists e.
Qed.
Lemma exp_same e y v y' v' t : inner e -> (forall i f, List.nth_error fs i = Some f -> forall t, y i t = y' i t) -> (forall k, List.In k (numbersG eqs) -> v k = v' k) ->
  exp_at e y v t = exp_at e y' v' t.
Proof.
move=> Hi Hy Hv; elim: e Hi => [ts|g|k|a IHa b IHb|a IHa b IHb|f a IHa] Hi //=.
- by apply: system_same => w Hw; have [f Ef] := proj1 Hi ts w (or_introl erefl) Hw; exact: (Hy _ f Ef).
- by apply: Hv; apply: (proj2 Hi); left.
- by case/inner_app: Hi => H1 H2; rewrite IHa // IHb.
- by case/inner_app: Hi => H1 H2; rewrite IHa // IHb.
- by rewrite IHa.
Qed.
Lemma dexp_same e y v y' v' dy dv dy' dv' t : inner e -> (forall i f, List.nth_error fs i = Some f -> forall t, y i t = y' i t) -> (forall k, List.In k (numbersG eqs) -> v k = v' k) ->
  (forall i f, List.nth_error fs i = Some f -> forall t, dy i t = dy' i t) -> (forall k, List.In k (numbersG eqs) -> dv k = dv' k) ->
  dexp_at e y v dy dv t = dexp_at e y' v' dy' dv' t.
Proof.
move=> Hi Hy Hv Hdy Hdv; elim: e Hi => [ts|g|k|a IHa b IHb|a IHa b IHb|f a IHa] Hi //=.
- by apply: system_same => w Hw; have [f Ef] := proj1 Hi ts w (or_introl erefl) Hw; exact: (Hdy _ f Ef).
- by apply: Hdv; apply: (proj2 Hi); left.
- by case/inner_app: Hi => H1 H2; rewrite IHa // IHb.
- by case/inner_app: Hi => H1 H2; rewrite IHa // IHb // (exp_same (e := a) t H1 Hy Hv) (exp_same (e := b) t H2 Hy Hv).
- by rewrite IHa // (exp_same (e := a) t Hi Hy Hv).
Qed.
Lemma regular_same e y v y' v' t : inner e -> (forall i f, List.nth_error fs i = Some f -> forall t, y i t = y' i t) -> (forall k, List.In k (numbersG eqs) -> v k = v' k) ->
  regular e y v t -> regular e y' v' t.
Proof.
move=> Hi Hy Hv; elim: e Hi => [ts|g|k|a IHa b IHb|a IHa b IHb|f a IHa] Hi //=.
- by case/inner_app: Hi => H1 H2 [R1 R2]; split; [exact: IHa|exact: IHb].
- by case/inner_app: Hi => H1 H2 [R1 R2]; split; [exact: IHa|exact: IHb].
- by move=> [R1 [R2 R3]]; split; [exact: IHa|split=> //; rewrite -(exp_same (e := a) t Hi Hy Hv)].
Qed.

Local Notation res1 := (fun l : seq (dvalue R K unit) => if l is DUnk c :: _ then res c else [::]).
Lemma mainG : exists radius c : R, [/\ Rlt 0 radius, Rlt 0 c &
  forall i f e lo hi, List.nth_error fs i = Some f -> exists B C : R, [/\ Rle 0 B, Rle 0 C &
  forall h (d : @tdict R K) z, List.NoDup (List.map fst (td_items d)) -> contents h d = Some z -> same_form cp z -> near radius cp z ->
  forall timer printOut tol maxIter fuel, Rlt 0 tol -> Z.le maxIter (Z.of_nat fuel) -> Peano.le 1 fuel ->
  exists c' k out y v,
    fst (dNLLS keq Plain (1 : R_realFieldType) Rminus (@l_solve R_realFieldType) (@l_maxabs R_realFieldType) (@v_gt R_realFieldType) jacfwd fuel h d
           res1 [::] [::] None tol maxIter s timer printOut) = NReturns (NResult (DUnk c') (Z.of_nat k) out) /\
    [/\ same_form cp c' /\ curvesS jvp keq c' fs E y, entriesG (numbersG eqs) c' v, allowedG jvp fs y v,
      (forall t, Rle lo t -> Rle t hi -> Rle (Rabs (Rminus (Derive_n (y i) e t) (Derive_n (p i) e t))) (Rdiv B (pow 2 (2 ^ k)))) /\
      (forall a, List.In a (numbersG eqs) -> Rle (Rabs (Rminus (v a) (q a))) (Rdiv B (pow 2 (2 ^ k)))) &
      forall K', Rlt tol 1 -> Rle 2 (Rmult (Rmult tol c) (pow 2 (2 ^ K'))) -> Z.lt (Z.of_nat K'.+1) maxIter ->
        [/\ (k <= K'.+1)%N, forall t, Rle lo t -> Rle t hi -> Rle (Rabs (Rminus (Derive_n (y i) e t) (Derive_n (p i) e t))) (Rmult C tol) &
          forall a, List.In a (numbersG eqs) -> Rle (Rabs (Rminus (v a) (q a))) (Rmult C tol)]]]].
Proof.
have F0 := form_self W.
have Efit := Hfits.
have [a Ha] := trees_ok jvp keq Hk cp Hn fs E Gd eqs Efit.
pose jb i := List.nth i (jobsG eqs) (jobG0 (K:=K)).
have Hjb i : (i < m)%N -> List.In (jb i).1 eqs /\ List.In (jb i).2 (g_pts (jb i).1).
  by move=> /ltP Hi; apply/in_jobsG; rewrite -surjective_pairing; exact: List.nth_In.
have Hpy i f : List.nth_error fs i = Some f -> forall t, p i t = Y cp i t by exact: p_isG.
have Hqv k : List.In k (numbersG eqs) -> q k = V cp k by exact: q_is.
have Hrg i : (i < m)%N -> areg cp (a i).
  move=> Hi; have [He Ht] := Hjb i Hi; have [_ [_ H]] := Ha i (elimT ltP Hi) cp F0; apply: H => //.
  exact: (regular_same (inner_eq He) Hpy Hqv (Hreg He Ht)).
pose r (x : 'cV[R]_n) : 'cV[R]_m := \col_i aval (a i) (unp x).
pose jf (x : 'cV[R]_n) : 'M[R]_(m, n) := @Amx R_realFieldType K m (fun i => agrad (a i) (unp x)) cp.
have Uf x : same_form cp (unp x) by case: (unp_ok x).
have Up x : @pack R_realFieldType K n (unp x) = x by case: (unp_ok x).
have Uag i c : same_form cp c -> aagree (a i) (unp (pack n c)) c.
  by move=> Fc; apply: agree_all => M; apply: pack_dotv.
have rowE c (i : 'I_m) : same_form cp c -> r (pack n c) i 0 = exp_at (g_lhs (jb i).1) (Y c) (V c) (jb i).2.
  by move=> Fc; rewrite mxE (aagree_val _ _ _ (Uag i c Fc)); have /ltP Hi := ltn_ord i; case: (Ha i Hi c Fc).
have resE c : same_form cp c -> res c = of_col (r (pack n c)).
  move=> Fc; have := Hres Fc; rewrite (residualG_ok jvp keq cp fs E Gd eqs c Efit Fc) => -[<-].
  apply: (@eq_from_nth _ 0) => [|i]; first by rewrite size_of_col /residG -[List.map _ _]/(map _ _) size_map.
  rewrite /residG -[List.map _ _]/(map _ _) size_map => Hi.
  rewrite (nth_map (jobG0 (K:=K))) // -nth_listE -/(jb i).
  by have := congr1 (fun M : 'cV_m => M (Ordinal Hi) 0) (col_of_col (F:=R_realFieldType) (r (pack n c))); rewrite mxE /= => ->; rewrite rowE.
have sizeR c : same_form cp c -> List.length (res c) = m by move=> Fc; rewrite (resE c Fc) sizeE size_of_col.
have HJ c : same_form cp c -> exists D0, jac_of m D0 c (jacfwd res c) /\ jf (pack n c) = \matrix_(i, j) nth (0 : R_realFieldType) (derivatives D0 c i) j.
  move=> Fc; exists (fun i => agrad (a i) c); split.
    apply: (Hjac sizeR Fc) => i k a0 j /ltP Hi Hin Hj.
    have Hnc : List.NoDup (List.map fst c) by rewrite (proj1 Fc).
    apply: (is_derive_ext (fun x : R => aval (a i) (nudge keq k j x c))).
      move=> x; have Fx := nudge_form keq cp k j x c Fc.
      rewrite nth_listE (resE _ Fx).
      have := congr1 (fun M : 'cV_m => M (Ordinal Hi) 0) (col_of_col (F:=R_realFieldType) (r (pack n (nudge keq k j x c)))); rewrite mxE /= => ->.
      by rewrite mxE (aagree_val _ _ _ (Uag i _ Fx)).
    exact: (proj1 (agrad_derive keq Hk (a i) c k a0 j (areg_diff jvp cp _ (Hrg i Hi)) Hnc Hin Hj)).
  apply/matrixP => i j; rewrite [RHS]mxE AmxE derivativesE -(jrow_form _ _ Fc W) -!derivativesE !derivatives_map.
  by congr (nth _ _ _); apply: eq_map => w; apply: aagree_grad; exact: Uag.
have Hdir c c1 c2 (i : 'I_m) : same_form cp c -> same_form cp c1 -> same_form cp c2 ->
    (jf (pack n c) *m (pack n c2 - pack n c1)) i 0 = adir (a i) c c1 c2.
  move=> Fc F1 F2; rewrite dotv_diff_row // agrad_dir.
  by apply: aagree_at; exact: Uag.
have [rho [L [Hrho [HL0 HT0]]]] := all_nice cp F0 lip a m (fun i Hi => Hrg i (introT ltP Hi)).
have HT : @SpecNewton.taylor R_realFieldType m n r jf (pack n cp) rho L.
  move=> x y d Hx Hy Hd i.
  have Nx : near rho cp (unp x) by apply: within_near => //; [lra|rewrite Up].
  have Ny : near rho cp (unp y) by apply: within_near => //; [lra|rewrite Up].
  have Nd : near (Rabs d) (unp x) (unp y).
    apply: within_near => //; first exact: Rabs_pos.
    move=> j; rewrite !Up; apply: Order.POrderTheory.le_trans (Hd j) _; apply/RlebP; exact: Rle_abs.
  have := HT0 i (unp x) (unp y) (Rabs d) (elimT ltP (ltn_ord i)) (Uf x) (Uf y) Nx Ny (Rabs_pos _) Nd.
  have := Hdir (unp x) (unp x) (unp y) i (Uf x) (Uf x) (Uf y); rewrite !Up => <-.
  have -> : Rmult (Rabs d) (Rabs d) = Rmult d d by rewrite -Rabs_mult Rabs_pos_eq //; exact: Rle_0_sqr.
  move=> H; apply/RlebP; move: H; rewrite [X in `|X|]mxE [X in `|X + _|]mxE [X in `|_ + X|]mxE [X in `|_ + X - _|]mxE [X in `|X + _ - _|]mxE [X in `|_ - X - _|]mxE expr2.
  by [].
have Hr0 : r (pack n cp) = 0.
  apply/matrixP => i j; rewrite ord1 [RHS]mxE rowE //; have [H1 H2] := Hjb i (ltn_ord i).
  by rewrite -(exp_same _ (inner_eq H1) Hpy Hqv); exact: (Hsol H1 H2).
have Hker c : same_form cp c -> jf (pack n cp) *m (pack n c - pack n cp) = 0 ->
    (forall i f, List.nth_error fs i = Some f -> forall t, Y c i t = p i t) /\ forall k, List.In k (numbersG eqs) -> V c k = q k.
  move=> Fc Hh; apply: (Hiso (y := Y c) (v := V c)).
    move=> i f Ef; have [_ [_ [H1 [H2 _]]]] := good_facts jvp keq cp f E c (Gd (List.nth_error_In _ _ Ef)) Fc.
    by rewrite /Yc Ef.
  move=> e t He Ht.
  have [i0 [/ltP Hi0 Ei0]] := List.In_nth _ _ (jobG0 (K:=K)) (proj2 (in_jobsG eqs e t) (conj He Ht)).
  pose i := Ordinal Hi0; have Ei : jb i = (e, t) by [].
  have := congr1 (fun M : 'cV[R]_m => M i 0) Hh; rewrite (Hdir cp cp c i F0 F0 Fc) [RHS]mxE -[0]/R0.
  have [_ [H _]] := Ha i0 (elimT ltP Hi0) cp F0; have [-> _] := H cp c F0 Fc; rewrite Ei0 => HH; refine (eq_trans _ HH).
  apply: (@dexp_same (g_lhs e) p q (Y cp) (V cp) _ _ (fun i s => Rminus (Y c i s) (Y cp i s)) (fun k => Rminus (V c k) (V cp k)) t (inner_eq He) Hpy Hqv).
    by move=> j f Ef x; rewrite (Hpy j f Ef).
  by move=> k Hi; rewrite (Hqv k Hi).
have Hidle (k : 'cV[R]_n) : jf (pack n cp) *m k = 0 -> @idle R_realFieldType m n r jf k.
  move=> Hk0; pose c := unp (pack n cp + k).
  have Fc : same_form cp c by exact: Uf.
  have Ec : pack n c = pack n cp + k by exact: Up.
  have Hd0 : pack n c - pack n cp = k by rewrite Ec addrC addKr.
  have [|Ey Ev] := Hker c Fc; first by rewrite Hd0.
  have Ag (i : 'I_m) : aagree (a i) cp c.
    have /ltP Hi := ltn_ord i; have [_ [H _]] := Ha i Hi cp F0; have [_ {}H] := H cp c F0 Fc; apply: H.
      by move=> j f Ef t; rewrite (Ey j f Ef) (Hpy j f Ef).
    move=> kk Hkk; have Hin : List.In kk (numbersG eqs) by apply/List.in_flat_map; exists (jb i).1; split=> //; exact: (proj1 (Hjb i (ltn_ord i))).
    by rewrite (Ev kk Hin) (Hqv kk Hin).
  move=> x.
  have Agx (i : 'I_m) : aagree (a i) (unp x) (unp (x + k)).
    apply: (aagree_move jvp _ _ _ cp c) => // M; rewrite (dotv_diff M (Uf x) (Uf (x + k))) (dotv_diff M F0 Fc) !Up.
    by rewrite !opprD !addrA !subrr.
  split.
  - by apply/matrixP => i j; rewrite !mxE (aagree_val _ _ _ (Agx i)).
  - apply/matrixP => i j; rewrite !AmxE -!derivativesE !derivatives_map.
    by congr (nth _ _ _); apply: eq_map => w; rewrite (aagree_grad _ _ _ _ _ (Agx i)).
  - apply/matrixP => i j; rewrite ord1 [RHS]mxE.
    have := Hdir (unp x) (unp x) (unp (x + k)) i (Uf x) (Uf x) (Uf (x + k)); rewrite !Up (aagree_dir _ _ _ _ (Agx i)).
    by rewrite addrAC subrr add0r.
have Hall c : same_form cp c -> res1 (DUnk c :: @dargs R_realFieldType K unit [::]) = of_col (r (pack n c)) /\
     exists D0, jac_of m D0 c (jacfwd (fun v => res1 (DUnk v :: @dargs R_realFieldType K unit [::])) c) /\ jf (pack n c) = \matrix_(i, j) nth (0 : R_realFieldType) (derivatives D0 c i) j.
  by move=> Fc; split; [exact: resE|exact: HJ].
have HL' : 0 <= (L : R_realFieldType) by apply/RlebP.
have Hrho' : 0 < (rho : R_realFieldType) by apply/RltbP.
have [radius [c [C [Hrad Hcp HC Hgo]]]] := @C109_newton R_realFieldType K unit keq Plain jacfwd m n cp [::] res1 r jf [::] s rho L
  Hk Hok erefl Hall Hs (Sorting.Sorted.SSorted_nil _) (List.Forall_nil _) HT Hr0 HL' Hrho' Hidle.
have Hc' : Rlt 0 c by move/RltbP: Hcp.
have HC' : Rlt 0 C by move/RltbP: HC.
exists radius, c; split=> //; first by move/RltbP: Hrad.
move=> i f e lo hi Ef; have [B1 [HB1 Hbnd]] := @bound jvp K keq fs [::] E cp Hk Hn Hok HS0 i f e lo hi Ef.
have [B2 [HB2 Hbnd2]] := num_bound.
exists (Rdiv (Rplus B1 B2) c), (Rmult (Rplus B1 B2) C); split.
- by apply: Rmult_le_pos; [lra|left; apply: Rinv_0_lt_compat].
- by apply: Rmult_le_pos; lra.
move=> h dd z Hnd Hcz Fz Hz timer printOut tol maxIter fuel Htol HM Hfl.
have Hz' : @within R_realFieldType n (pack n z - pack n cp) radius by exact: near_within.
have [xs' [_ Ek' _ Hgo']] := Hgo h dd z Hnd Hcz Fz Hz'.
rewrite -(Up xs') in Ek' Hgo'; set cx := unp xs' in Ek' Hgo'.
have Fx : same_form cp cx by exact: Uf.
have [Ep Eq] := Hker cx Fx Ek'.
have Htol' : 0 < (tol : R_realFieldType) by apply/RltbP.
have [c' [k [out [E1 F1 E3 E4]]]] := Hgo' timer printOut tol maxIter fuel Htol' HM Hfl.
have Hcl x x' : Rle 0 x -> @within R_realFieldType n (pack n c' - pack n cx) x -> Rmult (Rplus B1 B2) x = x' ->
    (forall t, Rle lo t -> Rle t hi -> Rle (Rabs (Rminus (Derive_n (Y c' i) e t) (Derive_n (p i) e t))) x') /\
    (forall a, List.In a (numbersG eqs) -> Rle (Rabs (Rminus (V c' a) (q a))) x').
  move=> Hx Hw <-; have P1 := Rmult_le_pos _ _ HB1 Hx; have P2 := Rmult_le_pos _ _ HB2 Hx; split.
    move=> t Hl Hh; have := Hbnd _ _ _ F1 Fx Hw t Hl Hh.
    by rewrite (Derive_n_ext _ _ e t (Ep i f Ef)); lra.
  move=> kk Hkk; have := Hbnd2 kk Hkk cx c' x Fx F1 Hx (within_near Hx Fx F1 Hw); rewrite (Eq kk Hkk); lra.
have [Hcu _] := sys_curves Hk Hn HS F1.
exists c', k, out, (Y c'), (V c'); split; first exact: E1.
have Hpw : Rlt 0 (pow 2 (2 ^ k)) by apply: pow_lt; lra.
split=> //.
- move=> kk Hkk; have [a1 [Ha1 [Hs1 _]]] := Hq Hkk.
  have [a2 [E2 [E5 E6]]] := form_get keq cp c' kk a1 F1 (v_get_in keq Hk cp kk a1 Hn Ha1).
  exists a2; split; first by have [l1 [l2 ->]] := v_get_split keq Hk c' kk a2 E2; apply/List.in_app_iff; right; left.
  split; first by rewrite E5.
  by move: E6; rewrite /wf E5 Hs1 /get E2; case: (a_data a2) => [|x0 [|x1 l0]].
- move=> j g Eg; have [_ [_ [H1 [H2 _]]]] := good_facts jvp keq cp g E c' (Gd (List.nth_error_In _ _ Eg)) F1.
  by rewrite /Yc Eg.
- apply: Hcl E3 _.
    rewrite RinvE RpowE; last exact: Rmult_lt_0_compat.
    by left; apply: Rinv_0_lt_compat; exact: Rmult_lt_0_compat.
  rewrite RinvE RpowE; last exact: Rmult_lt_0_compat.
  rewrite -RmE Rinv_mult_distr; [|exact: Rgt_not_eq|exact: Rgt_not_eq].
  by rewrite /Rdiv Rmult_assoc.
move=> K' Ht1 H2 HM'.
have Ht1' : (tol : R_realFieldType) < 1 by apply/RltbP.
have H2' : 2%:R <= (tol : R_realFieldType) * c * 2%:R ^+ (2 ^ K') by apply/RlebP; rewrite RpowE R2E.
have [Hk' Hw] := E4 K' Ht1' H2' HM'.
have [|//|G1 G2] := Hcl _ (Rmult (Rmult (Rplus B1 B2) C) tol) _ Hw.
- by rewrite -RmE; apply: Rmult_le_pos; lra.
- by rewrite -RmE -Rmult_assoc.
by split.
Qed.
End Main.

(** ** C112 *)
(** Let the functions [p] and the numbers [q] be what the script has for the dictionary [cp], let them solve
    the equations at their points, let the functions applied in the equations be smooth near the values there,
    and let the equations linearised at [p], [q] have no other solution there among the functions and
    numbers the script allows.  Then NLLS from any dictionary close to [cp] returns after [k] iterations
    a dictionary of the same form whose functions meet all conditions; they are within [B / 2^(2^k)] of
    [p], with derivatives of any order, on any interval, and the numbers within that of [q].  With enough
    iterations allowed it stops by itself, within a multiple of [tol]. *)
Theorem C112_converges : forall jvp (K : Type) (keq : K -> K -> bool) fs eqs E cp p q res jacfwd s,
  keq_ok keq -> List.NoDup (List.map fst cp) -> cp <> [::] -> List.Forall (fun p => is1d (snd p)) cp ->
  system jvp fs (linsG eqs) cp E -> (forall k, List.In k (numbersG eqs) -> holds cp k 1) ->
  (forall c, same_form cp c -> residualG jvp keq c fs eqs = Some (res c)) -> differentiatesD keq jacfwd cp ->
  curvesS jvp keq cp fs E p -> entriesG (numbersG eqs) cp q -> (forall e, List.In e eqs -> solves_geqn p q e) ->
  (forall e t, List.In e eqs -> List.In t (g_pts e) -> regular (g_lhs e) p q t) -> isolatedG jvp fs eqs p q -> valid_method s ->
  exists radius c : R, [/\ Rlt 0 radius, Rlt 0 c &
  forall i f e lo hi, List.nth_error fs i = Some f -> exists B C : R, [/\ Rle 0 B, Rle 0 C &
  forall h (d : @tdict R K) z, List.NoDup (List.map fst (td_items d)) -> contents h d = Some z -> same_form cp z -> near radius cp z ->
  forall timer printOut tol maxIter fuel, Rlt 0 tol -> Z.le maxIter (Z.of_nat fuel) -> Peano.le 1 fuel ->
  exists c' k out y v,
    fst (dNLLS keq Plain (1 : R_realFieldType) Rminus (@l_solve R_realFieldType) (@l_maxabs R_realFieldType) (@v_gt R_realFieldType) jacfwd fuel h d
           (fun l : seq (dvalue R K unit) => if l is DUnk c :: _ then res c else [::]) [::] [::] None tol maxIter s timer printOut)
      = NReturns (NResult (DUnk c') (Z.of_nat k) out) /\
    [/\ same_form cp c' /\ curvesS jvp keq c' fs E y, entriesG (numbersG eqs) c' v, allowedG jvp fs y v,
      (forall t, Rle lo t -> Rle t hi -> Rle (Rabs (Rminus (Derive_n (y i) e t) (Derive_n (p i) e t))) (Rdiv B (pow 2 (2 ^ k)))) /\
      (forall a, List.In a (numbersG eqs) -> Rle (Rabs (Rminus (v a) (q a))) (Rdiv B (pow 2 (2 ^ k)))) &
      forall K', Rlt tol 1 -> Rle 2 (Rmult (Rmult tol c) (pow 2 (2 ^ K'))) -> Z.lt (Z.of_nat K'.+1) maxIter ->
        [/\ (k <= K'.+1)%N, forall t, Rle lo t -> Rle t hi -> Rle (Rabs (Rminus (Derive_n (y i) e t) (Derive_n (p i) e t))) (Rmult C tol) &
          forall a, List.In a (numbersG eqs) -> Rle (Rabs (Rminus (v a) (q a))) (Rmult C tol)]]]].
Proof.
move=> jvp K keq fs eqs E cp p q res jacfwd s Hk Hn Hne H1 HS Hnum Hr Hj Hp Hq Hsol Hreg Hiso Hs.
exact: (mainG Hk Hn (conj Hne H1) HS Hnum Hr Hj Hp Hq Hsol Hreg Hiso Hs).
Qed.
Print Assumptions C112_converges.

Lemma get_entry (K : Type) (keq : K -> K -> bool) (c c' : seq (K * @arr R)) k : keq_ok keq -> List.NoDup (List.map fst c) -> holds c k 1 -> same_form c c' ->
  exists a, [/\ List.In (k, a) c', a_shape a = [:: 1%N] & a_data a = [:: get keq c' k 0%N]].
Proof.
move=> Hk Hn [a1 [Ha1 Hs1]] F1; have [a2 [E2 [E5 E6]]] := form_get keq c c' k a1 F1 (v_get_in keq Hk c k a1 Hn Ha1).
exists a2; split.
- by have [l1 [l2 ->]] := v_get_split keq Hk c' k a2 E2; apply/List.in_app_iff; right; left.
- by rewrite E5.
by move: E6; rewrite /wf E5 Hs1 /get E2; case: (a_data a2) => [|x0 [|x1 l0]].
Qed.
(** Such a dictionary exists for all functions and numbers the script allows, and the script's residual
    is defined for every dictionary of the form and zero exactly when the equations are solved. *)
Theorem C112_reached : forall jvp (K : Type) (keq : K -> K -> bool) fs eqs E (c : seq (K * @arr R)) p q,
  keq_ok keq -> List.NoDup (List.map fst c) -> system jvp fs (linsG eqs) c E ->
  (forall k, List.In k (numbersG eqs) -> holds c k 1 /\ ~ List.In k (List.map f_key fs)) ->
  (allowedG jvp fs p q -> exists cp, [/\ same_form c cp, curvesS jvp keq cp fs E p & entriesG (numbersG eqs) cp q]) /\
  (forall c', same_form c c' -> exists y v r, [/\ curvesS jvp keq c' fs E y, entriesG (numbersG eqs) c' v, residualG jvp keq c' fs eqs = Some r &
     (forall x, List.In x r -> x = R0) <-> forall e, List.In e eqs -> solves_geqn y v e]).
Proof.
move=> jvp K keq fs eqs E c p q Hk Hn HS Hnum.
have G f : List.In f fs -> good jvp keq c f E by move=> Hf; exact: (good_all Hk Hn HS Hf).
split.
  move=> Hp.
  have [|c' [H1 [H2 H3]]] := reachedG jvp keq Hk c Hn fs E G p q (sy_keys HS) _ Hp.
    by move=> f s k Hf Hs Ev; case: (sy_entry HS Hf Hs Ev).
  exists c'; split=> //.
    move=> i f e t Ef He; have [Hcu _] := sys_curves Hk Hn HS H1; rewrite (Hcu i f e t Ef He); congr (Some [:: _]).
    by apply: Derive_n_ext => s; rewrite (H2 i f Ef) /Yc Ef.
  move=> k Hi; have [Hh Hni] := Hnum k Hi; have [a [A1 A2 A3]] := get_entry Hk Hn Hh H1.
  by exists a; split=> //; split=> //; rewrite A3 (H3 k (holds_has Hk Hn Hh) Hni).
move=> c' Fc; have [Hcu _] := sys_curves Hk Hn HS Fc.
exists (Yc jvp keq c' fs), (fun k => get keq c' k 0%N), (residG eqs (Yc jvp keq c' fs) (fun k => get keq c' k 0%N)); split=> //.
- by move=> k Hi; have [Hh _] := Hnum k Hi; have [a [A1 A2 A3]] := get_entry Hk Hn Hh Fc; exists a.
- apply: (residualG_ok jvp keq c fs E G eqs c' _ Fc) => e He.
  by apply: (Hfits Hk Hn HS _ He) => k Hi; case: (Hnum k Hi).
rewrite /residG; split=> H.
  move=> e He t Ht.
  exact: (H _ (List.in_map (fun q => exp_at (g_lhs q.1) (Yc jvp keq c' fs) (fun k => get keq c' k 0%N) q.2) _ _ (proj2 (in_jobsG eqs e t) (conj He Ht)))).
by move=> x /List.in_map_iff [[e t] [<- /in_jobsG [He Ht]]] /=; exact: (H e He t Ht).
Qed.
Print Assumptions C112_reached.

(** b y' = exp(y - t) with y(0) = 0 and an unknown number b; Chebyshev polynomials of degree one, two points.  NLLS from
    any dictionary close to the one of y = t, b = 1 gives a function and a number close to these. *)
Example C112_case : exists u cp res (radius c C : R),
  let one := fun t => Rplus R1 (Rmult R0 t) in let zero := fun _ : R => R0 in let ones := fun _ : R => R1 in
  let fs := [:: SFun 0%N u [:: SCond 0 R0 (Given R0)] [:: one]] in
  let eqs := [:: GEqn (u_x u) (XAdd (XMul (XEntry 1%N) (XLin [:: (0%N, [:: zero; ones])]))
                 (XMul (XCoef (fun _ => Ropp R1)) (XApp exp (XAdd (XLin [:: (0%N, [:: ones])]) (XCoef Ropp)))))] in
  mk Cpp (UB CP) 2 (NcInt (Z.of_nat 1)) 1 R0 R1 [::] [::] = Some u /\
  List.map fst cp = [:: 0%N; 1%N] /\ (forall c', same_form cp c' -> residualG rjvp Nat.eqb c' fs eqs = Some (res c')) /\
  [/\ Rlt 0 radius, Rlt 0 c & forall h (d : @tdict R nat) z (tol : R), List.NoDup (List.map fst (td_items d)) -> contents h d = Some z -> same_form cp z -> near radius cp z ->
  Rlt 0 tol -> Rlt tol 1 -> Rle 2 (Rmult (Rmult tol c) (pow 2 (2 ^ 8))) ->
  exists c' k out (y : nat -> R -> R) v,
    fst (dNLLS Nat.eqb Plain (1 : R_realFieldType) Rminus (@l_solve R_realFieldType) (@l_maxabs R_realFieldType) (@v_gt R_realFieldType) (deriveD Nat.eqb) 10 h d
           (fun l : seq (dvalue R nat unit) => if l is DUnk c :: _ then res c else [::]) [::] [::] None tol 10 Pinv false false)
      = NReturns (NResult (DUnk c') (Z.of_nat k) out) /\
    [/\ (k <= 9)%N, curvesS rjvp Nat.eqb c' fs 1 y /\ List.In (1%N, Arr_ [:: 1%N] [:: v]) c', y 0%N R0 = R0,
        forall t, Rle 0 t -> Rle t 1 -> Rle (Rabs (Rminus (y 0%N t) t)) (Rmult C tol) & Rle (Rabs (Rminus v 1)) (Rmult C tol)]].
Proof.
have [||||u Hu] := @mk_some Cpp (UB CP) 2 (NcInt (Z.of_nat 1)) [:: Z0] 1 R0 R1 [::] [::] erefl.
- by rewrite /=; lia.
- by move=> i [<-|[]]; lia.
- by left.
- by lia.
pose one := fun t => Rplus R1 (Rmult R0 t); pose zero := fun _ : R => R0; pose ones := fun _ : R => R1.
pose f1 := SFun 0%N u [:: SCond 0 R0 (Given R0)] [:: one] : sfun (K:=nat).
pose e1 := GEqn (u_x u) (XAdd (XMul (XEntry 1%N) (XLin [:: (0%N, [:: zero; ones])]))
                 (XMul (XCoef (fun _ => Ropp R1)) (XApp exp (XAdd (XLin [:: (0%N, [:: ones])]) (XCoef Ropp))))).
pose fs := [:: f1]; pose eqs := [:: e1].
pose c0 : seq (nat * @arr R) := [:: (0%N, Arr_ [:: 1%N] [:: R0]); (1%N, Arr_ [:: 1%N] [:: R0])].
have Hk : keq_ok Nat.eqb by move=> x y; exact: Nat.eqb_eq.
have Hn : List.NoDup (List.map fst c0) by rewrite /=; repeat constructor => /=; intuition discriminate.
have S1 : switchingF (List.map plain (f_cs f1)) [:: one].
  split=> //; split.
    by move=> q [<-|[]]; exact: (proj1 (lin_smooth _ _)).
  move=> [|i] [|j] k q //=; try by case: i.
  - by move=> [<-] [<-] /=; rewrite /one; lra.
  - by move=> _; case: j.
have HS c : same_form c0 c -> system rjvp fs (linsG eqs) c 1 /\ holds c 1%N 1.
  move=> [K1 [K2 _]]; case: c K1 K2 => [|[k0 a0] [|[k1 a1] [|x l]]] // [E0 E1] [F0 F1]; rewrite {}E0 {}E1.
  split; last by exists a1; split=> //; right; left.
  split.
  - by rewrite /=; repeat constructor => /=; intuition discriminate.
  - move=> f [<-|[]]; exists 1%N; split; last by exists a0; split=> //; left.
    exists Cpp, (UB CP), 2%N, (NcInt (Z.of_nat 1)), [:: Z0], 1%N, R0, R1, [::], [::]; split=> //.
    split=> //; first exact: rjvp_ok.
    + by lra.
    + by split; [repeat constructor => /=; intuition discriminate|move=> i [<-|[]]; rewrite /=; lia].
    + by move=> k [<-|[]] /=; lia.
  - by move=> f s k [<-|[]] [<-|[]].
  - move=> e t; rewrite /linsG /=.
    by move=> [<-|[<-|[]]] //= [<-|[]] /=; lia.
have W0 : List.Forall (fun q => wf (snd q)) c0 by repeat constructor.
have [HS0 Hh0] := HS c0 (form_self (F:=R_realFieldType) W0).
have H2 : Peano.le 2 2 by lia.
have Hx : Rlt R0 R1 by lra.
have [h0 [HH [_ [_ [Hpol [Hrep [HN [Hnd _]]]]]]]] := rows0 _ rjvp_ok _ _ _ _ _ _ _ _ _ _ Hu ltac:(discriminate) H2 Hx.
have lin y : spannedF rjvp u [:: one] y -> exists v w, forall t, y t = Rplus v (Rmult w t).
  move=> [a [r [Hl Hy]]]; have [l [Hll El]] := Hpol a.
  exists (Rplus (List.nth 0 l R0) (List.nth 0 r R0)), (List.nth 1 l R0) => t.
  have [M [row [E1 [E2 ->]]]] := Hy t; rewrite HH in E1; move: E1 => [E1]; rewrite -E1 /= in E2; move: E2 => [<-].
  rewrite El; case: r Hl {Hy} => [|r0 [|r1 r]] //= _; case: l Hll {El} => [|l0 [|l1 [|l2 l]]] /= Hll; rewrite /one; try lra; lia.
have [x1 [x2 [Ex Hne]]] : exists x1 x2, u_x u = [:: x1; x2] /\ x1 <> x2.
  case: (u_x u) HN Hnd => [|x1 [|x2 [|x3 l]]] // _ Hnd'; exists x1, x2; split=> //; move=> E; rewrite E in Hnd'.
  by inversion Hnd' as [|? ? Hi _]; apply: Hi; left.
pose p (i : nat) (t : R) : R := Rplus R0 (Rmult R1 t).
pose q (k : nat) : R := R1.
have span w : (exists v a, forall t, w t = Rplus v (Rmult a t)) -> spannedF rjvp u [:: one] w.
  move=> [v [w' Hq]].
  have [|a [r [Hl Hr]]] := Hrep [:: v; w']; first by [].
  exists a, [:: List.nth 0 r R0]; split=> // t; exists (Mat 1 1 [:: h0 0%N t]), (h0 0%N t); split; first exact: HH.
  split=> //; rewrite Hq; have := Hr t; rewrite /=; case: r Hl {Hr} => [|r0 [|r1 r]] /= Hl; rewrite /one; try lra; lia.
have Hal : allowedG rjvp fs p q.
  move=> [|i] f; last by case: i.
  move=> [<-]; split; first by apply: span; exists R0, R1.
  by move=> s [<-|[]] /=; rewrite /p; lra.
have [Hre _] := @C112_reached rjvp nat Nat.eqb fs eqs 1 c0 p q Hk Hn HS0 ltac:(by move=> k [<-|[]]; split; [exact: Hh0|move=> [|[]]]).
have [cp [Fcp Hcp Hqp]] := Hre Hal.
have Fk : List.map fst cp = [:: 0%N; 1%N] by exact: (proj1 Fcp).
have Hncp : List.NoDup (List.map fst cp) by rewrite Fk; exact: Hn.
have [HSp Hhp] := HS cp Fcp.
have Hnum k : List.In k (numbersG eqs) -> holds cp k 1 by move=> [<-|[]].
pose res c' := odflt [::] (residualG rjvp Nat.eqb c' fs eqs).
have Hr c' : same_form cp c' -> residualG rjvp Nat.eqb c' fs eqs = Some (res c').
  move=> H; have [|_ Hd] := @C112_reached rjvp nat Nat.eqb fs eqs 1 cp p q Hk Hncp HSp.
    by move=> k [<-|[]]; split; [exact: Hhp|move=> [|[]]].
  by have [y [v [r [_ _ Er _]]]] := Hd c' H; rewrite /res Er.
have Hne0 : cp <> [::] by move=> E; rewrite E in Fk.
have [_ H1] : @entries_ok R_realFieldType nat Plain cp.
  by apply: (form_ok (F:=R_realFieldType) Fcp); split=> //; repeat constructor.
have od0 w t : odeF [:: ones] w t = w t by rewrite /odeF /= /ones; lra.
have od1 w t : odeF [:: zero; ones] w t = Derive w t.
  change (Rplus (Rmult R0 (w t)) (Rplus (Rmult R1 (Derive w t)) R0) = Derive w t); lra.
have Dl v w t : Derive (fun s => Rplus v (Rmult w s)) t = w by exact: (proj2 (lin_smooth v w)).
have De t : Derive exp t = exp t by apply: is_derive_unique; exact: is_derive_exp.
have p0 t : Rplus (Rplus (odeF [:: ones] (p 0%N) t) R0) (Ropp t) = R0 by rewrite od0 /p; lra.
have Hsol e : List.In e eqs -> solves_geqn p q e.
  by move=> [<-|[]] t _; rewrite /= p0 exp_0 od1 /p Dl /q; lra.
have Hreg e t : List.In e eqs -> List.In t (g_pts e) -> regular (g_lhs e) p q t.
  move=> [<-|[]] _ /=; split=> //; split=> //; split=> //; split.
    by move=> x; exists (exp x); exact: is_derive_exp.
  rewrite p0; exists R1, (exp R1); split=> [|z Hz]; first by lra.
  have Dz : is_derive (Derive exp) z (exp z).
    by apply: (is_derive_ext exp); [move=> s; rewrite De|exact: is_derive_exp].
  split; first by exists (exp z).
  rewrite (is_derive_unique _ _ _ Dz) Rabs_pos_eq; last by left; exact: exp_pos.
  have : Rle z R1 by have := Rle_abs (Rminus z R0); lra.
  by case=> [/exp_increasing|->]; lra.
have Hiso : isolatedG rjvp fs eqs p q.
  move=> y v Hy Hlin.
  have [Sp1 M1] := Hy 0%N f1 erefl; have [v1 [w1 Y1]] := lin _ Sp1.
  have E1 := M1 _ (or_introl erefl); rewrite /= Y1 in E1.
  have D1 t : Derive (fun s => Rminus (y 0%N s) (p 0%N s)) t = Rminus w1 R1.
    rewrite (Derive_ext _ (fun s => Rplus (Rminus v1 R0) (Rmult (Rminus w1 R1) s))); first exact: Dl.
    by move=> s; rewrite Y1 /p; lra.
  have V1 : v1 = R0 by lra.
  have L1 t : List.In t (u_x u) -> Rplus (Rminus (v 1%N) R1) (Rmult (Rminus R1 t) (Rminus w1 R1)) = R0.
    move=> Ht; have := Hlin e1 t (or_introl erefl) Ht; rewrite /= p0 De exp_0 !od0 !od1 D1 Y1 V1 /p Dl /q; lra.
  have A1 := L1 x1; have A2 := L1 x2; rewrite Ex in A1 A2.
  have {}A1 := A1 (or_introl erefl); have {}A2 := A2 (or_intror (or_introl erefl)).
  have Z2 : Rminus w1 R1 = R0.
    have : Rmult (Rminus x1 x2) (Rminus w1 R1) = R0 by lra.
    by case/Rmult_integral => // ?; exfalso; apply: Hne; lra.
  split; last by move=> k [<-|[]]; rewrite Z2 in A1; rewrite /q; lra.
  move=> [|i] f; last by case: i.
  by move=> _ t; rewrite Y1 /p V1; have -> : w1 = R1 by lra.
have [radius [c [Hrad Hc Hgo]]] := @C112_converges rjvp nat Nat.eqb fs eqs 1 cp p q res (deriveD Nat.eqb) Pinv Hk Hncp Hne0 H1 HSp Hnum Hr
  (deriveD_ok Nat.eqb cp) Hcp Hqp Hsol Hreg Hiso ltac:(by []).
have [B [C [_ HC Hrun]]] := Hgo 0%N f1 0%N R0 R1 erefl.
exists u, cp, res, radius, c, C; split; first exact: Hu.
split; first exact: Fk.
split; first exact: Hr.
split=> // h d z tol Hd Hz Fz Hnear Ht0 Ht1 Hbig.
have [c' [k [out [y [v [E1 [[F1 Hcu] Hen Hv _ Hstop]]]]]]] := Hrun h d z Hd Hz Fz Hnear false false tol (Zpos 10) 10%N Ht0 ltac:(lia) ltac:(lia).
have [|Hk9 Hcl Hcv] := Hstop 8%N Ht1 Hbig; first by lia.
exists c', k, out, y, (v 1%N); split; first exact: E1.
split=> //.
- split=> //; have [[sh da] [Hin [Hs Hd']]] := Hen 1%N (or_introl erefl); rewrite /= in Hs Hd'; by rewrite -Hs -Hd'.
- by have [_ M1] := Hv 0%N f1 erefl; have /= -> := M1 _ (or_introl erefl).
- move=> t H3 H4; have := Hcl t H3 H4; rewrite /= /p.
  by have -> : Rplus R0 (Rmult R1 t) = t by lra.
exact: (Hcv 1%N (or_introl erefl)).
Qed.
