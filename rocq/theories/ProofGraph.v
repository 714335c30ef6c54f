From Coq Require Import String DecimalString Decimal DecimalNat.
From mathcomp Require Import all_ssreflect all_algebra.
From Verif Require Import Base ModelGraph SpecGraph.
Set Implicit Arguments.
Unset Strict Implicit.
Unset Printing Implicit Defensive.
Import GRing.Theory Num.Theory.
Local Open Scope ring_scope.

(** ** Nilpotent matrices and walks *)
Section Walks.
Variables (F : numClosedFieldType) (n : nat).
Variable A : 'M[F]_n.+1.
Hypothesis A01 : forall i j, A i j = 0 \/ A i j = 1.
Let r : rel 'I_n.+1 := fun i j => A i j != 0.

Lemma A_ge0 i j : 0 <= A i j.
Proof. by case: (A01 i j) => ->; rewrite ?ler01. Qed.
Lemma pow_ge0 k i j : 0 <= (A ^+ k) i j.
Proof.
elim: k i j => [|k IH] i j; first by rewrite expr0 mxE ler0n.
by rewrite exprS mxE; apply: sumr_ge0 => l _; apply: mulr_ge0; [apply: A_ge0|apply: IH].
Qed.
Lemma pow_walk k i j : (A ^+ k) i j != 0 -> exists p, [/\ path r i p, last i p = j & size p = k].
Proof.
elim: k i j => [|k IH] i j.
  rewrite expr0 mxE; case: (i =P j) => [<-|] //=; last by rewrite eqxx.
  by exists [::].
rewrite exprS mxE => H.
have [l Hl] : exists l, A i l * (A ^+ k) l j != 0.
  apply/existsP; apply: contraNT H => /existsPn H; rewrite big1 // => l _.
  by apply/eqP; have := H l; rewrite negbK.
move: Hl; rewrite mulf_eq0 negb_or => /andP[H1 /IH [p [Hp Hlast Hs]]].
by exists (l :: p); split=> /=; [rewrite /r H1|exact: Hlast|rewrite Hs].
Qed.
Lemma walk_pow p i j : path r i p -> last i p = j -> 1 <= (A ^+ size p) i j.
Proof.
elim: p i => [|l p IH] i /=; first by move=> _ <-; rewrite expr0 mxE eqxx.
move=> /andP[H1 Hp] Hl; rewrite exprS mxE (bigD1 l) //=.
have -> : A i l = 1 by move: H1; rewrite /r; case: (A01 i l) => ->; rewrite ?eqxx.
rewrite mul1r; apply: (Order.POrderTheory.le_trans (IH _ Hp Hl)); rewrite ler_addl.
by apply: sumr_ge0 => m _; apply: mulr_ge0; [apply: A_ge0|apply: pow_ge0].
Qed.

Lemma eigs0_nilp : all (fun z => z == 0) (eigvals A) -> A ^+ n.+1 = 0.
Proof.
rewrite /eigvals; case: (closed_field_poly_normal _) => s /= Hs Hall.
have E : char_poly A = 'X^(size s).
  rewrite Hs (monicP (char_poly_monic A)) scale1r.
  elim: s Hall {Hs} => [|z s IH] /=; first by rewrite big_nil expr0.
  by move=> /andP[/eqP-> Hall]; rewrite big_cons exprS IH // subr0.
have Esz : size s = n.+1 by have := size_char_poly A; rewrite E size_polyXn => -[].
by have := Cayley_Hamilton A; rewrite E Esz rmorphX /= horner_mx_X.
Qed.
Lemma nilp_eigs0 k : A ^+ k = 0 -> all (fun z => z == 0) (eigvals A).
Proof.
move=> Hk; rewrite /eigvals; case: (closed_field_poly_normal _) => s /= Hs; apply/allP=> z Hz.
have : root (char_poly A) z.
  by rewrite Hs (monicP (char_poly_monic A)) scale1r root_prod_XsubC.
rewrite -eigenvalue_root_char => /eigenvalueP[v Hv Hv0].
have Hp q : v *m (A ^+ q) = z ^+ q *: v.
  elim: q => [|q IH]; first by rewrite !expr0 mulmx1 scale1r.
  by rewrite exprS -[A * _]/(A *m _) mulmxA Hv -scalemxAl IH scalerA -exprS.
have := Hp k; rewrite Hk mulmx0 => /esym/eqP; rewrite scaler_eq0 (negbTE Hv0) orbF expf_eq0.
by case/andP.
Qed.
(** no closed walk *)
Definition acyc := forall i p, path r i p -> last i p = i -> p = [::].
Lemma acyc_nilp : acyc -> A ^+ n.+1 = 0.
Proof.
move=> Hac; apply/matrixP=> i j; rewrite mxE; apply/eqP; apply/negP=> /negP /pow_walk[p [Hp _ Hs]].
pose t : rel 'I_n.+1 := fun x y => [exists z, r x z && connect r z y].
have tP x y : reflect (exists z, r x z && connect r z y) (t x y) by apply: existsP.
have Ht : transitive t.
  move=> y x z /tP[u /andP[H1 H2]] /tP[w /andP[H3 H4]]; apply/tP; exists u; rewrite H1 /=.
  by apply: connect_trans H2 _; apply: connect_trans H4; apply: connect1.
have Hi : irreflexive t.
  move=> x; apply/negbTE/negP=> /tP[u /andP[H1 /connectP[q Hq Hl]]].
  by have := Hac x (u :: q); rewrite /= H1 Hq -Hl => /(_ isT erefl).
have Hu : uniq (i :: p).
  apply: (sorted_uniq Ht Hi) => /=; move: Hp; apply: sub_path => x y Hxy.
  by apply/tP; exists y; rewrite Hxy connect0.
have := max_card (mem (i :: p)); rewrite (card_uniqP Hu) card_ord /= Hs.
by rewrite ltnn.
Qed.
Lemma nilp_acyc k : A ^+ k = 0 -> acyc.
Proof.
move=> Hk i p Hp Hl; case: p Hp Hl => // x p Hp Hl; exfalso.
have Hge q : 1 <= (A ^+ (size (x :: p) * q)) i i.
  elim: q => [|q IH]; first by rewrite muln0 expr0 mxE eqxx.
  rewrite mulnS exprD mxE (bigD1 i) //=.
  have H0 : 0 <= \sum_(j | j != i) (A ^+ (size p).+1) i j * (A ^+ ((size p).+1 * q)) j i.
    by apply: sumr_ge0 => m _; apply: mulr_ge0; apply: pow_ge0.
  apply: (Order.POrderTheory.le_trans IH); apply: (@Order.POrderTheory.le_trans _ _ ((A ^+ (size p).+1) i i * (A ^+ ((size p).+1 * q)) i i)); last by rewrite ler_addl.
  by apply: ler_pemull; [apply: pow_ge0|exact: (walk_pow Hp Hl)].
have := Hge k; rewrite mulnC exprM Hk /= exprS mul0r mxE.
by rewrite ler10.
Qed.
End Walks.

(** ** The adjacency matrix *)
Section Adj.
Variables (V : eqType) (L : Type) (F : numClosedFieldType).
Notation edge := (@edge V L).
Implicit Types (N : seq V) (E : seq edge) (t : seq bool) (p : edge * bool).

(** the entry an edge sets, if any *)
Definition hit N (k : V) p : option (nat * nat) :=
  if e_node0 p.1 == k then if p.2 then Some (index (e_node1 p.1) N, index (e_node0 p.1) N) else None
  else if e_node1 p.1 == k then if ~~ p.2 then Some (index (e_node0 p.1) N, index (e_node1 p.1) N) else None
  else None.
Lemma adj_edgeE N k (a : nat -> nat -> F) p i j :
  adj_edge N k a p i j = if hit N k p == Some (i, j) then 1 else a i j.
Proof.
case: p => e b; rewrite /adj_edge /hit /set_entry /=.
have S i' j' : (Some (i', j') == Some (i, j)) = (i == i') && (j == j').
  apply/eqP/andP => [[-> ->]|[/eqP-> /eqP->]] //.
by case: (_ == k); case: b; case: (e_node1 e == k); rewrite //= S.
Qed.
Lemma inner_E N k l (a : nat -> nat -> F) i j :
  foldl (adj_edge N k) a l i j = if has (fun p => hit N k p == Some (i, j)) l then 1 else a i j.
Proof.
elim: l a => //= p l IH a; rewrite IH adj_edgeE.
by case: (hit _ _ _ == _); rewrite /= ?if_same.
Qed.
Lemma outer_E N l Ns (a : nat -> nat -> F) i j :
  foldl (fun a k => foldl (adj_edge N k) a l) a Ns i j
  = if has (fun k => has (fun p => hit N k p == Some (i, j)) l) Ns then 1 else a i j.
Proof.
elim: Ns a => //= k Ns IH a; rewrite IH inner_E.
by case: (has _ l); rewrite /= ?if_same.
Qed.
Definition effective p := p.2 || (e_node0 p.1 != e_node1 p.1).
Lemma hitP N l i j : all (fun p => (e_node0 p.1 \in N) && (e_node1 p.1 \in N)) l ->
  has (fun k => has (fun p => hit N k p == Some (i, j)) l) N
  = has (fun p => effective p && ((index (arc_of p).1 N == i) && (index (arc_of p).2 N == j))) l.
Proof.
move=> HN; transitivity (has (fun p => has (fun k => hit N k p == Some (i, j)) N) l).
  elim: l {HN} => [|p l IH] /=; first by elim: (N).
  by rewrite -IH -has_predU; apply: eq_has.
elim: l HN => //= -[e b] l IH /andP[/andP[H0 H1] /IH->]; move: H0 H1 => /= H0 H1; congr (_ || _); apply/hasP/idP => /=.
- case=> k Hk; rewrite /hit /effective /arc_of /=.
  case: (e_node0 e =P k) => [E0|E0]; first by case: b => // /eqP[<- <-]; rewrite !eqxx.
  case: (e_node1 e =P k) => [E1|E1] //; case: b => // /eqP[<- <-]; rewrite !eqxx /= andbT.
  by apply/eqP=> H; apply: E0; rewrite H.
- rewrite /effective /arc_of /= => /andP[Hf /andP[/eqP Hi /eqP Hj]].
  exists (if b then e_node0 e else e_node1 e); first by case: (b).
  move: Hf Hi Hj; rewrite /hit /=; case: b => /=.
    by move=> _ <- <-; rewrite eqxx.
  by move=> /negbTE-> <- <-; rewrite eqxx.
Qed.
Lemma adjE N E t i j : all (fun e => (e_node0 e \in N) && (e_node1 e \in N)) E ->
  adj F N E t i j = (has (fun p => effective p && ((index (arc_of p).1 N == i) && (index (arc_of p).2 N == j))) (zip E t))%:R.
Proof.
move=> HN; rewrite /adj outer_E hitP; first by case: (has _ _).
elim: E t HN => [|e E IH] [|b t] //= /andP[-> HE] /=; exact: IH.
Qed.
Lemma arc'P E t x y : arc' E t x y = has (fun p => effective p && (arc_of p == (x, y))) (zip E t).
Proof.
rewrite /arc'; elim: (zip E t) => //= p l IH; rewrite -/(effective p).
by case: (effective p) => /=; rewrite ?in_cons IH // eq_sym.
Qed.
Lemma arc_nodes N E t x y : all (fun e => (e_node0 e \in N) && (e_node1 e \in N)) E -> arc' E t x y -> (x \in N) && (y \in N).
Proof.
move=> HN; rewrite arc'P; elim: E t HN => [|e E IH] [|b t] //= /andP[/andP[H0 H1] HE] /orP[|/IH->//].
by rewrite /arc_of /=; case: b => /andP[_ /eqP[<- <-]]; rewrite H0 H1.
Qed.

(** ** The test keeps exactly the orientations without a cycle *)
Lemma keepsP N E t : all (fun e => (e_node0 e \in N) && (e_node1 e \in N)) E ->
  reflect (acyclic (arc' E t)) (keeps F N E t).
Proof.
case: N => [|x0 N'] HN.
  have E0 : E = [::] by case: E HN.
  have -> : keeps F [::] E t = true.
    rewrite /keeps /eigvals; case: (closed_field_poly_normal _) => s /= Hs.
    case: s Hs => // z s; rewrite (monicP (char_poly_monic _)) scale1r => /(congr1 (fun q : {poly F} => size q)).
    by rewrite size_char_poly size_prod_XsubC.
  by apply: ReflectT => x [|y p] //=; rewrite arc'P E0; case: (t).
set N := x0 :: N'.
pose A : 'M[F]_((size N').+1) := \matrix_(i, j) adj F N E t i j.
have A01 i j : A i j = 0 \/ A i j = 1 by rewrite mxE adjE //; case: (has _ _); [right|left].
pose idx (x : V) : 'I_((size N').+1) := inord (index x N).
have idxE x : x \in N -> idx x = index x N :> nat.
  by rewrite -index_mem => H; rewrite inordK.
have Hr x y : arc' E t x y -> A (idx x) (idx y) != 0.
  move=> H; have /andP[Hx Hy] := arc_nodes HN H; rewrite mxE adjE // !idxE //.
  move: H; rewrite arc'P => H; rewrite (_ : has _ _) ?oner_neq0 //.
  by apply: sub_has H => p /andP[-> /eqP->] /=; rewrite !eqxx.
have Hr' i j : A i j != 0 -> arc' E t (nth x0 N i) (nth x0 N j).
  rewrite mxE adjE //; case H: (has _ _); last by rewrite eqxx.
  move=> _; rewrite arc'P; elim: E t HN H {A A01 Hr} => [|e E IH] [|b t] //= /andP[/andP[H0 H1] HE].
  case/orP=> [/andP[-> /andP[/eqP<- /eqP<-]]|H]; last by rewrite IH ?orbT.
  apply/orP; left; rewrite /= /arc_of /=; case: (b) => /=; rewrite !nth_index // eqxx.
have Hk : keeps F N E t = all (fun z => z == 0) (eigvals A) by [].
apply: (iffP idP); rewrite Hk.
- move=> /eigs0_nilp Hn; have Hac := nilp_acyc A01 Hn.
  move=> x p Hp Hl; have := Hac (idx x) (map idx p).
  rewrite last_map Hl => H; have : map idx p = [::].
    by apply: H => //; move: Hp; apply: homo_path => u v; apply: Hr.
  by case: (p).
- move=> Hac; apply: (@nilp_eigs0 _ _ _ (size N').+1); apply: acyc_nilp => r i p Hp Hl.
  pose f (j : 'I_((size N').+1)) := nth x0 N j.
  have H : map f p = [::]; last by case: (p) H.
  apply: (Hac (f i)); last by rewrite last_map Hl.
  by rewrite path_map; apply: sub_path Hp => u v; apply: Hr'.
Qed.
Lemma arc_no_loops E t : no_loops E -> arc' E t =2 arc E t.
Proof.
move=> Hl x y; rewrite /arc' /arc; elim: E t Hl => [|e E IH] [|b t] //= /andP[H Hl].
by rewrite H orbT /= !in_cons IH.
Qed.
End Adj.

(** ** itertools.product *)
Lemma size_product01 n : size (product01 n) = (2 ^ n)%N.
Proof. by elim: n => //= n IH; rewrite size_cat !size_map IH addnn -mul2n expnS. Qed.
Lemma mem_product01 n t : (t \in product01 n) = (size t == n).
Proof.
elim: n t => [|n IH] [|b t] //=.
  by rewrite mem_cat; apply/negbTE; rewrite negb_or; apply/andP; split; apply/mapP=> -[].
rewrite mem_cat eqSS -IH; case: b; apply/idP/idP.
- by case/orP=> /mapP[t' Ht] [] // ->.
- by move=> H; apply/orP; right; apply/mapP; exists t.
- by case/orP=> /mapP[t' Ht] [] // ->.
- by move=> H; apply/orP; left; apply/mapP; exists t.
Qed.
Lemma uniq_product01 n : uniq (product01 n).
Proof.
elim: n => //= n IH; rewrite cat_uniq !map_inj_uniq ?IH //=; last by move=> x y [].
  by rewrite andbT; apply/hasPn=> s /mapP[t _ ->]; apply/negP=> /mapP[t' _ []].
by move=> x y [].
Qed.

(** ** Names *)
Lemma str_inj : injective str.
Proof.
move=> j k H; apply: DecimalNat.Unsigned.to_uint_inj.
have := NilEmpty.usu (Nat.to_uint j); rewrite -/(str j) H NilEmpty.usu => -[] //.
Qed.
Lemma append_inj s : injective (append s).
Proof. by elim: s => [|c s IH] x y //= [/IH]. Qed.
Lemma tree_inj : injective tree.
Proof. by move=> j k /append_inj/str_inj. Qed.

(** ** Layout of the main page *)
Definition entry (k : nat) : string * string * seq string :=
  (tree k, append "Tree " (str k), [:: "htmlFiles"; append (tree k) ".html"]%string).
Definition row (n j : nat) := [seq entry k | k <- iota (j * 5) (minn 5 (n - j * 5))].
Lemma main_rowsE n : main_rows n = [seq row n j | j <- iota 0 ((n + 4) %/ 5)].
Proof.
rewrite /main_rows; set m := ((n + 4) %/ 5)%N.
match goal with |- ?g _ _ = _ => set go := g end.
have Hm : (forall j, j < m -> j * 5 < n)%N.
  by move=> j; rewrite /m leq_divRL // mulSn -[(5 + _)%N]/((4 + (j * 5).+1)%N) [(n + 4)%N]addnC leq_add2l.
have H l j : (j + l <= m)%N -> go (iota j l) (j * 5)%N = [seq row n i | i <- iota j l].
  elim: l j => [|l IH] j //= Hj; congr (_ :: _).
  case: l IH Hj => [|l] IH Hj //.
  have -> : (j * 5 + minn 5 (n - j * 5) = j.+1 * 5)%N; last by rewrite IH // addSnnS.
  have Hlt : (j.+1 * 5 < n)%N by apply: Hm; apply: leq_trans Hj; rewrite -2!addSnnS leq_addr.
  rewrite (minn_idPl _) ?mulSn ?[(5 + _)%N]addnC // leq_subRL; last by apply: ltnW; apply: leq_ltn_trans Hlt; rewrite leq_mul2r leqnSn.
  by move: Hlt; rewrite mulSn addnC => /ltnW.
exact: (H m 0%N).
Qed.
Lemma flatten_rows n m : (m <= (n + 4) %/ 5)%N -> flatten [seq row n j | j <- iota 0 m] = [seq entry k | k <- iota 0 (minn n (m * 5))].
Proof.
elim: m => [|m IH] Hm; first by rewrite minn0.
rewrite -addn1 iotaD map_cat flatten_cat IH ?(ltnW Hm) //= cats0 /row -map_cat add0n.
have Hlt : (m * 5 < n)%N by move: Hm; rewrite leq_divRL // mulSn -[(5 + _)%N]/((4 + (m * 5).+1)%N) [(n + 4)%N]addnC leq_add2l.
rewrite (minn_idPr (ltnW Hlt)) -iotaD; congr (map _ (iota 0 _)).
by rewrite addn_minr subnKC ?(ltnW Hlt) // addn1 mulSn [(5 + _)%N]addnC minnC.
Qed.
Lemma ceil5 n : (n <= (n + 4) %/ 5 * 5)%N.
Proof.
rewrite -(leq_add2r 4) {1}(divn_eq (n + 4) 5) leq_add2l.
by rewrite -ltnS ltn_mod.
Qed.
Lemma main_rows_flat n : flatten (main_rows n) = [seq entry k | k <- iota 0 n].
Proof. by rewrite main_rowsE flatten_rows // (minn_idPl (ceil5 n)). Qed.

Lemma split_app {T} (pre : seq T) a post l1 l2 : l1 ++ l2 = pre ++ a :: post ->
  (exists post', l1 = pre ++ a :: post') \/ (exists pre', pre = l1 ++ pre' /\ l2 = pre' ++ a :: post).
Proof.
elim: l1 pre => [|x l1 IH] pre /=; first by right; exists pre.
case: pre => [|y pre] /= [<-]; first by left; exists l1.
by move=> /IH[[p ->]|[p [-> ->]]]; [left; exists p|right; exists p].
Qed.
Lemma in_mid {T} (a : T) l l' : List.In a (l ++ a :: l').
Proof. by apply: List.in_or_app; right; left. Qed.
Lemma in_map_seq {K : eqType} {T} (f : K -> T) c (s : seq K) : List.In c [seq f j | j <- s] <-> exists2 j, j \in s & f j = c.
Proof.
elim: s => [|i s IH] /=; first by split=> // -[].
rewrite IH; split=> [[<-|[i' Hi <-]]|[i']].
+ by exists i; rewrite ?mem_head.
+ by exists i'; rewrite // in_cons Hi orbT.
+ by rewrite in_cons => /orP[/eqP-> <-|Hi <-]; [left|right; exists i'].
Qed.
Lemma append_length s t : length (append s t) = (length s + length t)%N.
Proof. by elim: s => //= c s ->. Qed.
Lemma append_inj_r s t u : append s u = append t u -> s = t.
Proof.
move=> H; have Hl : length s = length t.
  by move: (congr1 length H); rewrite !append_length => /eqP; rewrite eqn_add2r => /eqP.
elim: s t H Hl => [|c s IH] [|d t] //= [-> H] [Hl]; congr String.String; exact: IH.
Qed.
Lemma tree_ext_inj j k : append "tree" (append (str j) ".html") = append "tree" (append (str k) ".html") -> j = k.
Proof. by move=> /append_inj/append_inj_r/str_inj. Qed.
Lemma in_cat_l {T} (a : T) (l l' : seq T) : List.In a l -> List.In a (l ++ l').
Proof. by elim: l => //= x l IH [->|/IH]; [left|right]. Qed.
Lemma in_cat_r {T} (a : T) (l l' : seq T) : List.In a l' -> List.In a (l ++ l').
Proof. by elim: l => //= x l IH /IH; right. Qed.
