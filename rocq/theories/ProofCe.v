From mathcomp Require Import all_ssreflect all_algebra.
From Verif Require Import ModelCe SpecCe.
Set Implicit Arguments.
Unset Strict Implicit.
Unset Printing Implicit Defensive.
Import GRing.Theory.
Local Open Scope ring_scope.

Section Cache.
Variable E : comUnitRingType.
Notation abs := (@abs E).
Notation ce_state := (@ce_state E).
(** the inputs agree and every fresh cache holds the value it should *)
Definition inv (st : ce_state) (a : abs) (used : bool) : Prop :=
  [/\ [/\ c_C st = a_C a, c_K st = a_K a, c_s st = a_s a & c_g st = a_g a],
      S_stale st \/ c_S st = Some (v_S a),
      alpha_stale st \/ (c_alpha st = v_alpha a /\ v_alpha a <> None),
      (if phi_stale st then a_phi a = None else c_phi st = v_phi a /\ v_phi a <> None) &
      (if ce_stale st then a_ce a = None else used /\ c_ce st = v_ce a /\ v_ce a <> None)].
Lemma get_S_ok st a u : inv st a u -> inv (get_S st).1 a u /\ (get_S st).2 = Some (v_S a).
Proof.
move=> Hi; have [[H1 H2 H3 H4] HS Ha Hp Hc] := Hi; rewrite /get_S; case Hs: (S_stale st).
  have -> : S_value (c_C st) (c_s st) = v_S a by rewrite /S_value /v_S H1 H3.
  by split=> //; split=> //=; right.
by split=> //; case: HS => //; rewrite Hs.
Qed.
Lemma get_alpha_ok st a u : inv st a u -> inv (get_alpha st).1 a u /\ (get_alpha st).2 = v_alpha a.
Proof.
move=> Hi; rewrite /get_alpha; case: ifP => Hs; last first.
  by split=> //; case: Hi => _ _ [|[-> _]] //; rewrite Hs.
have := get_S_ok Hi; case: (get_S st) => st1 oS /= [Hi1 ->] /=.
rewrite -/(v_alpha a); case Ea: (v_alpha a) => [al|] //=; split=> //.
by case: Hi1 => H1 H2 H3 H4 H5; split=> //=; right; rewrite Ea.
Qed.
Lemma get_phi_ok st a u : inv st a u -> inv (get_phi st).1 a u /\ (get_phi st).2 = v_phi a.
Proof.
move=> Hi; rewrite /get_phi; case: ifP => Hs; last first.
  by split=> //; case: Hi => _ _ _; rewrite Hs => -[-> _].
have Hp : a_phi a = None by case: Hi => _ _ _; rewrite Hs.
have Es : c_s st = a_s a by case: Hi => -[].
have := get_alpha_ok Hi; case: (get_alpha st) => st1 oa /= [Hi1 ->] /=.
rewrite Es; have -> : obind (s_mul (s_tr (s_col (a_s a)))) (v_alpha a) = v_phi a by rewrite /v_phi Hp.
case Ep: (v_phi a) => [p|] //=; split=> //.
by case: Hi1 => H1 H2 H3 H4 H5; split=> //=; rewrite Ep.
Qed.
Lemma rho_ok st a u : inv st a u -> (get_rho st).2 = v_rho a.
Proof.
case=> -[H1 H2 H3 H4] _ _ _ _; rewrite /get_rho /rho_value /v_rho H1 H2 H4; case: ifP => //= Hs.
congr (Some (s_col _)); apply: (@eq_from_nth _ 0); first by rewrite size_map size_zip (minn_idPl Hs) size_mkseq.
move=> i; rewrite size_map size_zip (minn_idPl Hs) => Hi.
rewrite (nth_map (0, id)) ?size_zip ?(minn_idPl Hs) // nth_mkseq //.
by rewrite nth_zip_cond size_zip (minn_idPl Hs) Hi.
Qed.
Lemma get_ce_ok st a u : inv st a u -> inv (get_ce st).1 a true /\ (get_ce st).2 = v_ce a.
Proof.
move=> Hi; rewrite /get_ce; case: ifP => Hs; last first.
  case: Hi => H1 H2 H3 H4; rewrite Hs => -[Hu [Ec Hne]]; split=> //.
  by split=> //; rewrite Hs.
have Hc : a_ce a = None by case: Hi => _ _ _ _; rewrite Hs.
have := get_phi_ok Hi; case: (get_phi st) => st1 op /= [Hi1 ->].
have Hv : v_ce a = obind (fun p => obind (fun r => omap (fun x => a_g a + x) (obind (@s_first E) (s_mul p r))) (v_rho a)) (v_phi a) by rewrite /v_ce Hc.
have Hi1' : inv st1 a true by case: Hi1 => H1 H2 H3 H4 H5; split=> //; case: ifP H5 => // _ [].
rewrite Hv; case: (v_phi a) Hv => [p|] //= Hv.
have Hr : rho_value (c_C st1) (c_K st1) (c_g st1) = v_rho a := rho_ok Hi1.
rewrite Hr.
have Eg : c_g st1 = a_g a by case: Hi1 => -[].
case: (v_rho a) Hv => [r|] //= Hv; case: (obind _ _) Hv => [x|] //= Hv.
rewrite Eg; split=> //; case: Hi1' => -[H1 H2 H3 H4] H5 H6 H7 H8; split=> //=.
by rewrite Hv.
Qed.
Lemma foldl_checks (P : nat -> bool) l w b : foldl (fun ret p => if ~~ p.2 then (false, rcons ret.2 p.1.+1) else ret) (b, w) [seq (k, P k) | k <- l]
  = (b && nilp [seq k <- l | ~~ P k], w ++ [seq k.+1 | k <- l & ~~ P k]).
Proof.
elim: l w b => [|k l IH] w b /=; first by rewrite andbT cats0.
case: (P k) => /=; rewrite IH //= andbF cat_rcons //.
Qed.
Lemma zip_checks (P : nat -> bool) n m : zip (iota m n) (map P (iota m n)) = [seq (k, P k) | k <- iota m n].
Proof. by elim: n m => //= n IH m; rewrite IH. Qed.
Lemma checks_nth (C : seq (E -> E)) K ce : [seq p.1 ce == p.2 | p <- zip C K] = [seq (nth id C k) ce == nth 0 K k | k <- iota 0 (minn (size C) (size K))].
Proof.
apply: (@eq_from_nth _ false); first by rewrite !size_map size_zip size_iota.
move=> i; rewrite size_map => Hi; rewrite (nth_map (id, 0)) // nth_zip_cond Hi.
by move: Hi; rewrite size_zip => Hi; rewrite (nth_map 0%N) ?size_iota // nth_iota.
Qed.
Lemma check_ok st a u : inv st a u -> inv (checkCe st).1 a true /\ (checkCe st).2 = v_check a.
Proof.
move=> Hi; have [[H1 H2 H3 H4] _ _ _ _] := Hi.
rewrite /checkCe /v_check -size_zip H1 H2; case Ez: (zip _ _) => [|p l] /=.
  by split=> //; case: Hi => ? ? ? ? H5; split=> //; case: ifP H5 => // _ [].
have := get_ce_ok Hi; case: (get_ce st) => st1 oce /= [Hi1 ->].
case: (v_ce a) => [ce|] //=; split=> //.
have [[E1 E2 _ _] _ _ _ _] := Hi1; rewrite E1 E2 checks_nth size_map size_iota zip_checks foldl_checks /=.
by rewrite /failing /nilp size_map.
Qed.
Lemma run_ok os st a u : inv st a u -> phi_first u os -> ce_run st os = a_run a os.
Proof.
elim: os st a u => //= o os IH st a u Hi Hf.
have Hi' : inv st a true by case: Hi => ? ? ? ? H5; split=> //; case: ifP H5 => // _ [].
have [[H1 H2 H3 H4] H5 H6 H7 H8] := Hi.
have [[I1 I2 I3 I4] I5 I6 I7 I8] := Hi'.
have Hst (b : bool) (p : ce_state) q : inv p q b -> inv p q true.
  by case=> ? ? ? ? Hz; split=> //; case: ifP Hz => // _ [].
case: o Hf => /=.
- by have := get_ce_ok Hi; case: (get_ce st) => st1 r [Hi1 /= ->] Hf; congr (_ :: _); apply: IH Hi1 Hf.
- by have := get_phi_ok Hi; case: (get_phi st) => st1 r [Hi1 /= ->] Hf; congr (_ :: _); apply: IH Hi1 Hf.
- by have := get_alpha_ok Hi; case: (get_alpha st) => st1 r [Hi1 /= ->] Hf; congr (_ :: _); apply: IH Hi1 Hf.
- by have := get_S_ok Hi; case: (get_S st) => st1 r [Hi1 /= ->] Hf; congr (_ :: _); apply: IH Hi1 Hf.
- by move=> Hf; rewrite -(rho_ok Hi); congr (_ :: _); apply: IH Hi Hf.
- by move=> Hf; rewrite H1 H2 H3 H4; congr (_ :: _); apply: IH Hi Hf.
- by have := check_ok Hi; case: (checkCe st) => st1 r [Hi1 /= ->] Hf; congr (_ :: _); apply: IH Hi1 Hf.
- move=> v Hf; congr (_ :: _); apply: IH Hf; split=> //=.
- move=> v /andP[Hu Hf]; congr (_ :: _); apply: IH Hf; split=> //=.
  by case: ifP H8 => // Hs [Hu']; rewrite Hu' in Hu.
- by move=> v Hf; congr (_ :: _); apply: IH Hf; split=> //=; left.
- by move=> v Hf; congr (_ :: _); apply: IH Hf; split=> //=.
- by move=> v Hf; congr (_ :: _); apply: IH Hf; split=> //=; left.
- by move=> v Hf; congr (_ :: _); apply: IH Hf; split=> //=.
Qed.
Lemma inv_init C K s g : inv (ce_init C K s g) (Abs C K s g None None) false.
Proof. by split=> //=; left. Qed.
End Cache.

(** ** The value of a new object *)
Section Value.
Variable E : comUnitRingType.
Implicit Types (C : seq (E -> E)) (K s : seq E) (g : E).
Lemma smx_dims m m' n n' (f : nat -> nat -> E) : m = m' -> n = n' ->
  Smx (\matrix_(i < m, j < n) f i j) = Smx (\matrix_(i < m', j < n') f i j).
Proof. by move=> -> ->. Qed.
Lemma s_mulE m n p (A : 'M[E]_(m, n)) (B : 'M[E]_(n, p)) : s_mul (Smx A) (Smx B) = Some (Smx (A *m B)).
Proof. by rewrite /s_mul /=; case: eqP => // e; rewrite (eq_irrelevance e erefl) castmx_id. Qed.
Lemma s_mul_shape m n q p (A : 'M[E]_(m, n)) (B : 'M[E]_(q, p)) : q <> n -> s_mul (Smx A) (Smx B) = None.
Proof. by rewrite /s_mul /=; case: eqP. Qed.
Lemma s_invE n (A : 'M[E]_n) : s_inv (Smx A) = if A \in unitmx then Some (Smx (invmx A)) else None.
Proof. by rewrite /s_inv /=; case: eqP => // e; rewrite (eq_irrelevance e erefl) castmx_id. Qed.
Lemma s_colE (l : seq E) n : size l = n -> (0 < n)%N -> s_col l = Smx (\col_(i < n) nth 0 l i).
Proof. by case: l => [<-|x l <-]. Qed.
Lemma S_valueE C s : C <> [::] -> size s = size C -> S_value C s = Smx (support C s).
Proof. by case: C => // c C _ Hs; rewrite /S_value; apply: (smx_dims (fun i j => nth id (c :: C) i (nth 0 s j)) erefl Hs). Qed.
Lemma s_firstE (A : 'M[E]_(1, 1)) : s_first (Smx A) = Some (A 0 0).
Proof. by []. Qed.

(** the switching functions *)
Definition sw C s (j : nat) : E := \sum_(k < size C) nth 0 s k * (if insub j is Some j' then invmx (support C s) k j' else 0).
Lemma phi_valueE C s : C <> [::] -> size s = size C -> support C s \in unitmx ->
  obind (s_mul (s_tr (s_col s))) (s_inv (S_value C s)) = Some (Smx (\row_(j < size C) sw C s j)).
Proof.
move=> HC Hs HU; have H0 : (0 < size C)%N by case: (C) HC.
rewrite S_valueE // s_invE HU /= (s_colE Hs H0) /s_tr /= s_mulE; congr (Some (Smx _)).
apply/matrixP=> i j; rewrite !mxE; apply: eq_bigr => k _; rewrite !mxE insubT //= => Hj.
by congr (_ * invmx _ _ _); apply: val_inj.
Qed.
Lemma expression_some C K s g : C <> [::] -> size s = size C -> size K = size C -> support C s \in unitmx ->
  expression C K s g = Some (g + \sum_(j < size C) sw C s j * (nth 0 K j - (nth id C j) g)).
Proof.
move=> HC Hs HK HU; rewrite /expression; have [_ ->] := get_ce_ok (inv_init C K s g).
have H0 : (0 < size C)%N by case: (C) HC.
have EP := phi_valueE HC Hs HU.
rewrite /v_ce /= /v_phi /= /v_alpha (_ : v_S _ = S_value C s) // EP /= /v_rho /= HK leqnn /=.
rewrite (@s_colE _ (size C)) ?size_mkseq // s_mulE /= mxE; congr (Some (g + _)).
by apply: eq_bigr => j _; rewrite !mxE nth_mkseq.
Qed.
Lemma expression_singular C K s g : C <> [::] -> size s = size C -> support C s \notin unitmx -> expression C K s g = None.
Proof.
move=> HC Hs HU; rewrite /expression; have [_ ->] := get_ce_ok (inv_init C K s g).
by rewrite /v_ce /= /v_phi /= /v_alpha (_ : v_S _ = S_value C s) // S_valueE // s_invE (negbTE HU).
Qed.
Lemma expression_shape C K s g : size s <> size C \/ size K <> size C \/ C = [::] -> expression C K s g = None.
Proof.
move=> H; rewrite /expression; have [_ ->] := get_ce_ok (inv_init C K s g).
rewrite /v_ce /= /v_phi /= /v_alpha (_ : v_S _ = S_value C s) //.
case: C H => [|c C] H.
  rewrite /S_value /= s_invE.
  case: ifP => //= _; case: s H => [|x s] H.
    rewrite /= s_mulE /= /v_rho /=; case: K H => [|k K] //= _; rewrite s_mulE //=.
  by rewrite /s_tr /= s_mul_shape.
case: (size s =P size (c :: C)) => Hs; last first.
  by rewrite /S_value /s_inv /=; case: eqP => // e; case: Hs; rewrite -e.
have HK : size K <> size (c :: C) by case: H => [|[]].
rewrite S_valueE // s_invE; case: ifP => //= HU; rewrite (s_colE Hs) // /s_tr /= s_mulE /= /v_rho /=.
case: ifP => //= HK'; rewrite /s_col; case Ek: (mkseq _ _) => [|x l].
  by rewrite s_mul_shape.
by rewrite s_mul_shape // -Ek size_mkseq.
Qed.

(** ** Linear operators *)
Section Lin.
Variables (Sc : {pred E}) (C : seq (E -> E)).
Hypothesis HSc : divring_closed Sc.
Hypothesis HC : forall c, List.In c C -> lin_over Sc c.
Lemma nth_in i : (i < size C)%N -> List.In (nth id C i) C.
Proof. by elim: (C) i => [|c l IH] [|i] //= Hi; [left|right; apply: IH]. Qed.
Lemma lin_sum n i (F : 'I_n -> E) : (i < size C)%N -> (nth id C i) (\sum_j F j) = \sum_j (nth id C i) (F j).
Proof.
move=> Hi; have [Hadd _] := HC (nth_in Hi); set c := nth id C i in Hadd *.
have H0 : c 0 = 0 by apply: (@addrI _ (c 0)); rewrite -Hadd !addr0.
elim: n F => [|n IH] F; first by rewrite !big_ord0.
by rewrite !big_ord_recl Hadd IH.
Qed.
Lemma in1 : 1 \in Sc. Proof. by case: HSc. Qed.
Lemma inB x y : x \in Sc -> y \in Sc -> x - y \in Sc. Proof. by case: HSc => _ H _; apply: H. Qed.
Lemma in0 : 0 \in Sc. Proof. by rewrite -(subrr 1); apply: inB; apply: in1. Qed.
Lemma inN x : x \in Sc -> - x \in Sc. Proof. by rewrite -sub0r; apply: inB; apply: in0. Qed.
Lemma inD x y : x \in Sc -> y \in Sc -> x + y \in Sc.
Proof. by move=> Hx Hy; rewrite -[y]opprK; apply: inB => //; apply: inN. Qed.
Lemma inV x : x \in Sc -> x^-1 \in Sc. Proof. by case: HSc => _ _ H Hx; rewrite -div1r; apply: H => //; apply: in1. Qed.
Lemma inM x y : x \in Sc -> y \in Sc -> x * y \in Sc.
Proof. by case: HSc => _ _ H Hx Hy; rewrite -[y]invrK; apply: H => //; apply: inV. Qed.
Lemma in_sum (I : finType) (F : I -> E) : (forall i, F i \in Sc) -> \sum_i F i \in Sc.
Proof. by move=> H; apply: (big_ind (fun x => x \in Sc)) => //; [apply: in0|apply: inD]. Qed.
Lemma in_prod (I : finType) (F : I -> E) : (forall i, F i \in Sc) -> \prod_i F i \in Sc.
Proof. by move=> H; apply: (big_ind (fun x => x \in Sc)) => //; [apply: in1|apply: inM]. Qed.
Lemma in_sign b : (-1) ^+ b \in Sc.
Proof. by elim: b => [|b IH]; rewrite ?expr0 ?exprS; [apply: in1|apply: inM => //; apply: inN; apply: in1]. Qed.
Lemma det_in n (A : 'M[E]_n) : (forall i j, A i j \in Sc) -> \det A \in Sc.
Proof. by move=> H; apply: in_sum => p; apply: inM; [apply: in_sign|apply: in_prod]. Qed.
Lemma inv_in n (A : 'M[E]_n) i j : (forall i j, A i j \in Sc) -> invmx A i j \in Sc.
Proof.
move=> H; rewrite /invmx; case: ifP => // _; rewrite !mxE; apply: inM; first by apply: inV; apply: det_in.
by apply: inM; [apply: in_sign|apply: det_in => k l; rewrite !mxE].
Qed.

Variable s : seq E.
Hypothesis HU : support C s \in unitmx.
Hypothesis HS : forall i j : 'I_(size C), support C s i j \in Sc.
Lemma sw_dual i j : (i < size C)%N -> (j < size C)%N -> (nth id C i) (sw C s j) = (i == j)%:R.
Proof.
move=> Hi Hj; have [_ Hm] := HC (nth_in Hi); rewrite /sw lin_sum //.
have /matrixP/(_ (Ordinal Hi) (Ordinal Hj)) := mulmxV HU; rewrite !mxE -val_eqE /= => <-.
apply: eq_bigr => k _; rewrite insubT Hm ?mxE //; exact: inv_in.
Qed.
(** the constraints hold if the projections are scalars *)
Lemma ce_satisfies K g : (forall j, (j < size C)%N -> nth 0 K j - (nth id C j) g \in Sc) ->
  satisfies C K (g + \sum_(j < size C) sw C s j * (nth 0 K j - (nth id C j) g)).
Proof.
move=> HR i Hi; have [Hadd Hm] := HC (nth_in Hi); rewrite Hadd lin_sum //.
rewrite (bigD1 (Ordinal Hi)) //= Hm ?HR // sw_dual //= eqxx mul1r big1 ?addr0; first by rewrite addrC subrK.
by move=> j Hj; rewrite Hm ?HR // sw_dual // (negbTE (_ : i != j)) ?mul0r //; rewrite eq_sym.
Qed.
End Lin.
End Value.
Lemma get_ce_fresh (E : comUnitRingType) (st : @ce_state E) v : (get_ce st).2 = Some v ->
  ce_stale (get_ce st).1 = false /\ c_ce (get_ce st).1 = Some v.
Proof.
rewrite /get_ce; case Hs: (ce_stale st) => //=.
case: (get_phi st) => st1 [p|] //=; case: (obind _ _) => [x|] //= [<-] //.
Qed.
Section Frame.
Variable E : comUnitRingType.
Definition same_inputs (a b : @ce_state E) : Prop := [/\ c_C a = c_C b, c_K a = c_K b, c_s a = c_s b & c_g a = c_g b].
Lemma get_S_in (st : @ce_state E) : same_inputs (get_S st).1 st.
Proof. by rewrite /get_S; case: ifP. Qed.
Lemma get_alpha_in (st : @ce_state E) : same_inputs (get_alpha st).1 st.
Proof. by rewrite /get_alpha; case: ifP => // _; have := get_S_in st; case: (get_S st) => st1 oS; case: (obind _ _). Qed.
Lemma get_phi_in (st : @ce_state E) : same_inputs (get_phi st).1 st.
Proof. by rewrite /get_phi; case: ifP => // _; have := get_alpha_in st; case: (get_alpha st) => st1 oS; case: (obind _ _). Qed.
Lemma get_ce_in (st : @ce_state E) : same_inputs (get_ce st).1 st.
Proof.
rewrite /get_ce; case: ifP => // _; have := get_phi_in st; case: (get_phi st) => st1 [p|] //.
by rewrite /get_rho; case: (obind _ _).
Qed.
End Frame.
