(** C49, C50: which orientations a ComponentConstraintGraph keeps, and what SaveGraphs draws. *)
From Coq Require Import String DecimalString Decimal DecimalNat.
From mathcomp Require Import all_ssreflect all_algebra.
From Verif Require Import Base ModelGraph SpecGraph ProofGraph.
Set Implicit Arguments.
Unset Strict Implicit.
Unset Printing Implicit Defensive.
Import GRing.Theory Num.Theory.
Local Open Scope ring_scope.

Section Claims.
Variables (V : eqType) (L : Type) (F : numClosedFieldType).
Notation edge := (@edge V L).
Implicit Types (N : seq V) (E : seq edge) (t : seq bool) (g : @graph V L).

(** the orientations the object says are good, in the order it lists them *)
Definition kept g : seq (seq bool) := [seq nth [::] (g_targets g) k | k <- g_good g].

(** ** C49 *)
(** With all ends among the nodes, no edge from a node to itself: every orientation is listed once,
    and kept exactly when it has no cycle. *)
Theorem C49_acyclic_partial N E : all (fun e => (e_node0 e \in N) && (e_node1 e \in N)) E -> no_loops E ->
  exists2 g, ComponentConstraintGraph F N E = Some g &
    [/\ g_N g = N /\ g_E g = E, uniq (g_targets g) /\ size (g_targets g) = (2 ^ size E)%N,
        forall t, (t \in g_targets g) = (size t == size E), uniq (kept g) &
        forall t, t \in kept g <-> size t = size E /\ acyclic (arc E t)].
Proof.
move=> HN HL; rewrite /ComponentConstraintGraph HN; eexists; first by [].
rewrite /kept /=; split=> //.
- split; [exact: uniq_product01|exact: size_product01].
- exact: mem_product01.
- rewrite map_inj_in_uniq ?filter_uniq ?iota_uniq // => i j.
  rewrite !mem_filter !mem_iota !add0n /= => /andP[_ Hi] /andP[_ Hj] H.
  by apply/eqP; rewrite -(nth_uniq [::] Hi Hj) ?uniq_product01 // H.
move=> t; split.
- move=> /mapP[j]; rewrite mem_filter mem_iota add0n => /andP[Hk Hj] ->.
  split; first by apply/eqP; rewrite -mem_product01 mem_nth.
  move/(keepsP _ _ HN): Hk => Hk x p Hp; apply: Hk; move: Hp; apply: sub_path => u v.
  by rewrite arc_no_loops.
- case=> Hs Ha; have Ht : t \in product01 (size E) by rewrite mem_product01 Hs.
  apply/mapP; exists (index t (product01 (size E))); last by rewrite nth_index.
  rewrite mem_filter mem_iota add0n /= index_mem Ht andbT nth_index //.
  apply/(keepsP _ _ HN) => x p Hp; apply: Ha; move: Hp; apply: sub_path => u v.
  by rewrite arc_no_loops.
Qed.

(** In general an edge from a node to itself counts as an arc only where its flag is 1. *)
Theorem C49_with_self_loops N E : all (fun e => (e_node0 e \in N) && (e_node1 e \in N)) E ->
  exists2 g, ComponentConstraintGraph F N E = Some g &
    forall t, t \in kept g <-> size t = size E /\ acyclic (arc' E t).
Proof.
move=> HN; rewrite /ComponentConstraintGraph HN; eexists; first by [].
rewrite /kept /= => t; split.
- move=> /mapP[j]; rewrite mem_filter mem_iota add0n => /andP[Hk Hj] ->.
  split; first by apply/eqP; rewrite -mem_product01 mem_nth.
  by apply/(keepsP F _ HN).
- case=> Hs Ha; have Ht : t \in product01 (size E) by rewrite mem_product01 Hs.
  apply/mapP; exists (index t (product01 (size E))); last by rewrite nth_index.
  rewrite mem_filter mem_iota add0n /= index_mem Ht andbT nth_index //.
  by apply/(keepsP F _ HN).
Qed.

(** an edge at a node that is not listed stops the program *)
Theorem C49_unknown_node N E : ~~ all (fun e => (e_node0 e \in N) && (e_node1 e \in N)) E ->
  ComponentConstraintGraph F N E = None.
Proof. by rewrite /ComponentConstraintGraph => /negbTE->. Qed.

(** A self-loop is a cycle either way round, yet one of its two orientations is kept. *)
Theorem C49_self_loop_refuted (x : V) (l : L) :
  exists2 g, ComponentConstraintGraph F [:: x] [:: Edge l x x] = Some g &
    [:: false] \in kept g /\ ~ acyclic (arc [:: Edge l x x] [:: false]).
Proof.
have HN : all (fun e : edge => (e_node0 e \in [:: x]) && (e_node1 e \in [:: x])) [:: Edge l x x] by rewrite /= inE eqxx.
have [g Hg Hk] := C49_with_self_loops HN; exists g => //; split.
  by apply/Hk; split=> // y [|z p] //=; rewrite /arc' /= eqxx.
move=> H; have := H x [:: x]; rewrite /= /arc /= /arc_of /= mem_seq1 eqxx => /(_ isT erefl) //.
Qed.

(** ** C50 *)
(** The main page lists trees 0, 1, ..., n-1 in that order, in rows of five. *)
Theorem C50_layout n :
  [/\ flatten (main_rows n) = [seq (tree k, append "Tree " (str k), [:: "htmlFiles"; append (tree k) ".html"]%string) | k <- iota 0 n],
      forall j, (j.+1 < size (main_rows n))%N -> size (nth [::] (main_rows n) j) = 5%N,
      forall j, (j < size (main_rows n))%N -> (0 < size (nth [::] (main_rows n) j) <= 5)%N &
      (* and each row's first tree is linked to the first of the next row *)
      forall a b, List.In (a, b) (main_links n) <->
        exists j, [/\ (j.+1 < size (main_rows n))%N,
          ohead [seq x.1.1 | x <- nth [::] (main_rows n) j] = Some a &
          ohead [seq x.1.1 | x <- nth [::] (main_rows n) j.+1] = Some b]].
Proof.
have Hsz : size (main_rows n) = ((n + 4) %/ 5)%N by rewrite main_rowsE size_map size_iota.
have Hlt j : (j < (n + 4) %/ 5)%N -> (j * 5 < n)%N.
  by rewrite leq_divRL // mulSn -[(5 + _)%N]/((4 + (j * 5).+1)%N) [(n + 4)%N]addnC leq_add2l.
have Hrow j : (j < (n + 4) %/ 5)%N -> nth [::] (main_rows n) j = row n j.
  by move=> H; rewrite main_rowsE (nth_map 0%N) ?size_iota // nth_iota.
have Hhd j : (j < (n + 4) %/ 5)%N -> ohead [seq x.1.1 | x <- row n j] = Some (tree (j * 5)).
  by move=> H; rewrite /row; have := Hlt _ H; rewrite -subn_gt0; case: (n - j * 5)%N => // m _; rewrite minnSS.
split; first exact: main_rows_flat.
- move=> j; rewrite Hsz => Hj; rewrite Hrow ?(ltnW Hj) // size_map size_iota.
  apply/minn_idPl; rewrite leq_subRL; last by apply: ltnW; apply: Hlt; apply: ltnW.
  by have := Hlt _ Hj; rewrite mulSn addnC => /ltnW.
- move=> j; rewrite Hsz => Hj; rewrite Hrow // size_map size_iota geq_minl andbT.
  by rewrite leq_min /= subn_gt0 Hlt.
move=> a b; rewrite Hsz /main_links.
have -> (s : seq nat) f : List.In (a, b) [seq f j | j <- s] <-> exists2 j, j \in s & f j = (a, b).
  elim: s => [|j s IH] /=; first by split=> // -[].
  rewrite IH; split=> [[<-|[i Hi <-]]|[i]].
  - by exists j; rewrite ?mem_head.
  - by exists i; rewrite // in_cons Hi orbT.
  - by rewrite in_cons => /orP[/eqP-> <-|Hi <-]; [left|right; exists i].
split.
- case=> -[|j]; rewrite mem_filter mem_iota //= add0n => Hj [<- <-].
  exists j; rewrite !Hrow ?Hhd //; try exact: ltnW; split=> //; by rewrite subn1.
- case=> j [Hj]; rewrite !Hrow ?Hhd // ?(ltnW Hj) // => -[<-] [<-].
  by exists j.+1; rewrite ?mem_filter ?mem_iota ?add0n //= subn1.
Qed.

(** Everything a page shows or includes has been written before the page is built. *)
Theorem C50_files_first g b pdf pre a post : SaveGraphs g b pdf = pre ++ a :: post ->
  forall f, List.In f (needs a) -> exists2 a', List.In a' pre & List.In f (leaves a').
Proof.
set targets := (if b then g_targets g else kept g); set n := size targets.
pose T k : @action V L := TreeDot [:: "dotFiles"; tree k]%string (g_N g) (tree_arcs (g_E g) (nth [::] targets k))
        (if pdf then [:: "cmapx"; "svg"; "pdf"] else [:: "cmapx"; "svg"])%string.
pose P k : @action V L := @Page V L [:: "htmlFiles"; append (tree k) ".html"]%string [:: ".."; "dotFiles"; append (tree k) ".svg"]%string
        (append "#" (tree k)) [:: "dotFiles"; append (tree k) ".cmapx"]%string.
pose A : seq (@action V L) := [:: @MainDot V L (main_rows n) (main_links n);
  @Page V L [:: "main.html"]%string [:: "dotFiles"; "main.svg"]%string "#main" [:: "dotFiles"; "main.cmapx"]%string].
rewrite -[SaveGraphs _ _ _]/(A ++ (map T (iota 0 n) ++ map P (iota 0 n))) => H f Hf.
have [[post1 H1]|[pre1 [Hpre H1]]] := split_app H.
  case: pre {H} H1 => [|a0 [|a1 pre]] /=.
  - by case=> Ea _; move: Hf; rewrite -Ea.
  - case=> <- Ea _; move: Hf; rewrite -Ea /= => -[<-|[<-|//]];
      (exists (@MainDot V L (main_rows n) (main_links n)); [by left|]); [by right; left|by left].
  - by case=> _ _; case: (pre).
have [[post2 H2]|[pre2 [Hpre2 H2]]] := split_app H1.
  have [k Hk Ea] : exists2 k, k \in iota 0 n & T k = a by apply/in_map_seq; rewrite H2; exact: in_mid.
  by move: Hf; rewrite -Ea.
have [k Hk Ea] : exists2 k, k \in iota 0 n & P k = a by apply/in_map_seq; rewrite H2; exact: in_mid.
exists (T k).
  rewrite Hpre Hpre2; apply (@in_cat_r _ _ A); apply: in_cat_l.
  by apply/in_map_seq; exists k.
by move: Hf; rewrite -Ea /= => -[<-|[<-|//]]; case: (pdf) => /=; auto.
Qed.

(** One drawing per tree, over all the nodes, with each edge along its arc and labelled with its name. *)
Theorem C50_drawings g b pdf : let targets := if b then g_targets g else kept g in
  [seq a <- SaveGraphs g b pdf | ~~ is_page a & ~~ nilp (path_of a)] =
  [seq TreeDot [:: "dotFiles"; tree k]%string (g_N g)
     [seq (arc_of p, e_name p.1) | p <- zip (g_E g) (nth [::] targets k)]
     (if pdf then [:: "cmapx"; "svg"; "pdf"] else [:: "cmapx"; "svg"])%string | k <- iota 0 (size targets)].
Proof.
move=> targets; rewrite /SaveGraphs -/(kept g) -/targets !filter_cat /= filter_map.
rewrite [X in _ ++ X](_ : _ = [::]) ?cats0; last by elim: (iota _ _).
rewrite (eq_filter (a2 := predT)) // filter_predT; apply: eq_map => k; congr TreeDot.
by apply: eq_map => -[e []].
Qed.

(** One page per tree, with different names; the links of the main page are exactly those pages. *)
Theorem C50_pages g b pdf : let targets := if b then g_targets g else kept g in
  let pages := [seq path_of a | a <- SaveGraphs g b pdf & is_page a] in
  [/\ size pages = (size targets).+1, List.NoDup pages, ohead pages = Some [:: "main.html"]%string &
      flatten [seq hrefs a | a <- SaveGraphs g b pdf] = behead pages].
Proof.
move=> targets pages.
have Ep : pages = [:: "main.html"]%string :: [seq [:: "htmlFiles"; append (tree k) ".html"]%string | k <- iota 0 (size targets)].
  rewrite /pages /SaveGraphs -/(kept g) -/targets !filter_cat /= !filter_map.
  rewrite (eq_filter (a2 := pred0)) // filter_pred0 /= (eq_filter (a2 := predT)) // filter_predT.
  by rewrite -map_comp.
split.
- by rewrite Ep /= size_map size_iota.
- rewrite Ep; constructor; first by move/in_map_seq=> -[k _].
  elim: (size targets) (0%N) => [|n IH] m /=; first by constructor.
  constructor; last exact: IH.
  move/in_map_seq=> -[k Hk [/append_inj_r/str_inj Hkm]]; move: Hk; rewrite Hkm mem_iota.
  by rewrite ltnn.
- by rewrite Ep.
rewrite Ep /SaveGraphs -/(kept g) -/targets !map_cat !flatten_cat /= main_rows_flat -!map_comp.
rewrite [X in _ ++ X](_ : _ = [::]); first by rewrite !cats0.
have Hz T (f : nat -> seq T) s : (forall k, f k = [::]) -> flatten (map f s) = [::] by move=> Hf; elim: s => //= k s ->; rewrite Hf.
by rewrite !Hz.
Qed.
End Claims.

(** ** Cases *)
(** Two edges between the same two nodes, over any closed field (mathcomp's algebraic numbers are one). *)
Example C49_ex (F : numClosedFieldType) :
  exists2 g, ComponentConstraintGraph F [:: true; false] [:: Edge tt true false; Edge tt true false] = Some g
  & kept g =i [:: [:: false; false]; [:: true; true]].
Proof.
have [//|//|g Hg [_ _ _ _ Hk]] := @C49_acyclic_partial _ unit F [:: true; false] [:: Edge tt true false; Edge tt true false].
exists g => // t; apply/idP/idP.
- move=> /Hk[]; case: t => [|a [|b [|]]] // _ Ha.
  case: a b Ha => -[] // Ha; exfalso.
  + by have := Ha true [:: false; true]; rewrite /= /arc /= /arc_of /= => /(_ isT erefl).
  + by have := Ha true [:: false; true]; rewrite /= /arc /= /arc_of /= => /(_ isT erefl).
- rewrite !inE => /orP[]/eqP->; apply/Hk; split=> // x p.
  + by case: x; case: p => // -[] // -[|y p] //; case: y => //.
  + by case: x; case: p => // -[] // -[|y p] //; case: y => //.
Qed.
Example C50_ex : [seq [seq x.1.1 | x <- r] | r <- main_rows 7]
  = [:: [:: "tree0"; "tree1"; "tree2"; "tree3"; "tree4"]; [:: "tree5"; "tree6"]]%string
  /\ main_links 7 = [:: ("tree0", "tree5")]%string.
Proof. by []. Qed.

Print Assumptions C49_acyclic_partial.
Print Assumptions C49_with_self_loops.
Print Assumptions C49_unknown_node.
Print Assumptions C49_self_loop_refuted.
Print Assumptions C50_layout.
Print Assumptions C50_files_first.
Print Assumptions C50_drawings.
Print Assumptions C50_pages.
Print Assumptions C49_ex.
