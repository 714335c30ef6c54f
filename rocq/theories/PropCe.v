(** C44-C48: constrained expressions and the CeSolver object. *)
From mathcomp Require Import all_ssreflect all_algebra.
From Verif Require Import ModelCe SpecCe ProofCe.
Set Implicit Arguments.
Unset Strict Implicit.
Unset Printing Implicit Defensive.
Import GRing.Theory.
Local Open Scope ring_scope.

Section Claims.
Variable E : comUnitRingType.
Implicit Types (C D : seq (E -> E)) (K L s t : seq E) (g : E).

(** [C], [K], [s] make a well-posed problem over the scalars [Sc] *)
Definition well_posed (Sc : {pred E}) C K s : Prop :=
  [/\ C <> [::], size s = size C /\ size K = size C, divring_closed Sc /\ (forall c, List.In c C -> lin_over Sc c),
      support C s \in unitmx & forall i j, support C s i j \in Sc].
(** the constraint values a function gives, and the wanted ones, are scalars *)
Definition scalar_data (Sc : {pred E}) C K g : Prop := forall j, (j < size C)%N -> nth 0 K j - (nth id C j) g \in Sc.

(** ** C44 *)
Theorem C44_satisfies Sc C K s g : well_posed Sc C K s -> scalar_data Sc C K g ->
  exists2 u, expression C K s g = Some u & satisfies C K u.
Proof.
case=> HC [Hs HK] [Hcl Hlin] HU HS HR; eexists; first exact: expression_some.
exact: (ce_satisfies Hcl).
Qed.
Theorem C44_singular C K s g : C <> [::] -> size s = size C -> support C s \notin unitmx -> expression C K s g = None.
Proof. exact: expression_singular. Qed.
(** lists of different lengths, or no constraint at all, also raise *)
Theorem C44_shapes C K s g : size s <> size C \/ size K <> size C \/ C = [::] -> expression C K s g = None.
Proof. exact: expression_shape. Qed.

(** ** C45 *)
Theorem C45_every_solution C K s g : C <> [::] -> size s = size C -> size K = size C -> support C s \in unitmx ->
  satisfies C K g -> expression C K s g = Some g.
Proof.
move=> HC Hs HK HU Hg; rewrite expression_some //; congr Some.
by rewrite big1 ?addr0 // => j _; rewrite Hg // subrr mulr0.
Qed.
Theorem C45_twice Sc C K s g u : well_posed Sc C K s -> scalar_data Sc C K g ->
  expression C K s g = Some u -> expression C K s u = Some u.
Proof.
move=> HW HR Hu; have [u' Hu' Hsat] := C44_satisfies HW HR.
have Eu : u' = u by move: Hu'; rewrite Hu => -[].
by case: HW => HC [Hs HK] _ HU _; apply: C45_every_solution => //; rewrite -Eu.
Qed.

(** ** C46 *)
(** Every read gives what it should, as long as phi is not assigned after ce has been used. *)
Theorem C46_reads_partial C K s g os : phi_first false os ->
  ce_run (ce_init C K s g) os = a_run (Abs C K s g None None) os.
Proof. exact: run_ok (inv_init C K s g). Qed.
(** In particular for all sequences without an assignment of phi. *)
Theorem C46_without_phi_partial C K s g os : (forall p, ~ List.In (SetPhi p) os) ->
  ce_run (ce_init C K s g) os = a_run (Abs C K s g None None) os.
Proof.
move=> H; apply: C46_reads_partial; elim: os false H => //= o os IH b H.
have {}IH c : phi_first c os by apply: IH => p Hp; apply: (H p); right.
by case: o H => //= p H; case: (H p); left.
Qed.

(** ** C47 *)
Theorem C47_recursive ScC ScD C D K L s t g :
  well_posed ScC C K s -> well_posed ScD D L t -> scalar_data ScC C K g ->
  (* the second set works on other variables: its functions are scalars for the first, and the operators commute *)
  (forall x, x \in t -> x \in ScC) -> (forall i j, support D t i j \in ScC) ->
  (forall c d x, List.In c C -> List.In d D -> c (d x) = d (c x)) ->
  (* consistent data *)
  (forall i j, (i < size C)%N -> (j < size D)%N -> (nth id C i) (nth 0 L j) = (nth id D j) (nth 0 K i)) ->
  exists2 u, expression C K s g = Some u &
    scalar_data ScD D L u -> exists2 v, expression D L t u = Some v & satisfies C K v /\ satisfies D L v.
Proof.
move=> HW HW' HR Ht HSt Hcomm Hcons; have [u Hu Hsat] := C44_satisfies HW HR; exists u => // HRu.
have [v Hv Hsat'] := C44_satisfies HW' HRu; exists v => //; split=> // i Hi.
have [HC _ [Hcl Hlin] _ _] := HW; have [HD [Ht' HL] _ HU' _] := HW'.
move: Hv; rewrite expression_some // => -[<-].
have Hc := nth_in Hi; have [Hadd Hm] := Hlin _ Hc.
have HB x y : (nth id C i) (x - y) = (nth id C i) x - (nth id C i) y.
  by apply: (@addIr _ ((nth id C i) y)); rewrite subrK -Hadd subrK.
rewrite Hadd Hsat // (lin_sum Hlin) // big1 ?addr0 // => j _.
rewrite mulrC Hm; last first.
  apply: (in_sum Hcl) => k; apply: (inM Hcl); first by apply: Ht; rewrite mem_nth // Ht'.
  by rewrite insubT //= => Hj; apply: (inv_in Hcl).
rewrite HB Hcons // (Hcomm _ _ _ Hc (nth_in (ltn_ord j))).
by rewrite Hsat // subrr mul0r.
Qed.

(** ** C48 *)
Theorem C48_decides (st : @ce_state E) ce : (get_ce st).2 = Some ce -> c_C st <> [::] -> c_K st <> [::] ->
  exists w, (checkCe st).2 = Some (nilp w, w) /\ sorted ltn w /\
    forall m, (m \in w) = (0 < m <= minn (size (c_C st)) (size (c_K st)))%N && ((nth id (c_C st) m.-1) ce != nth 0 (c_K st) m.-1).
Proof.
move=> Hce HC HK; rewrite /checkCe; case Ez: (zip _ _) => [|p l].
  by case: (c_C st) (c_K st) HC HK Ez => [|? ?] [].
have [E1 E2 _ _] := get_ce_in st.
case: (get_ce st) Hce E1 E2 => st1 oce /= -> -> ->.
rewrite checks_nth size_map size_iota zip_checks foldl_checks /=.
set w := [seq k.+1 | k <- _ & _]; exists w; split; first by rewrite /w /nilp size_map.
split.
  rewrite /w sorted_map; apply: (@sub_sorted _ ltn) => //; apply: sorted_filter; first exact: ltn_trans.
  exact: iota_ltn_sorted.
case=> [|k]; first by apply/mapP=> -[].
by rewrite /w mem_map ?mem_filter ?mem_iota ?add0n 1?andbC // => x y [].
Qed.
Theorem C48_true (st : @ce_state E) ce : (get_ce st).2 = Some ce -> c_C st <> [::] -> size (c_K st) = size (c_C st) ->
  (exists w, (checkCe st).2 = Some (true, w)) <-> satisfies (c_C st) (c_K st) ce.
Proof.
move=> Hce HC Hs; have HK : c_K st <> [::] by case: (c_K st) (c_C st) Hs HC => // -[].
have [w [-> [_ Hw]]] := C48_decides Hce HC HK; split.
  case=> w' [/nilP Hn _] i Hi; apply/eqP; have := Hw i.+1; rewrite Hn in_nil /= Hs minnn Hi /=.
  by move/esym/negbFE.
move=> Hsat; exists w; congr (Some (_, _)); apply/nilP; case: w Hw => // -[|k] w Hw.
  by have := Hw 0%N; rewrite mem_head.
by have := Hw k.+1; rewrite mem_head Hs minnn /= => /esym/andP[Hk]; rewrite Hsat ?eqxx.
Qed.

(** ** C46 fails when phi is assigned after ce has been read: ce keeps its old value. *)
Theorem C46_phi_after_ce_refuted : (1 : E) != 0 ->
  exists C K s g (p : smx E), ce_run (ce_init C K s g) [:: GetCe _; SetPhi p; GetCe _]
    <> a_run (Abs C K s g None None) [:: GetCe _; SetPhi p; GetCe _].
Proof.
move=> H10; exists [:: id], [:: 1], [:: 1], 0, (Smx (0 : 'M[E]_1)).
have HU : support [:: @id E] [:: 1] \in unitmx by rewrite unitmxE /support det_mx11 mxE unitr1.
have He : expression [:: @id E] [:: 1] [:: 1] 0 = Some 1.
  have HL : well_posed predT [:: @id E] [:: 1] [:: 1] by split=> //; split=> // c [<-|//].
  by have [//|u -> Hs] := C44_satisfies (g := 0) HL; congr Some; apply: (Hs 0%N).
have [Hf Hc] := get_ce_fresh He.
rewrite /= ; case: (get_ce _) Hf Hc => st1 r /= Hf Hc.
rewrite {1}/get_ce /= Hf Hc /v_ce /= => -[_]; rewrite s_mulE /= mul0mx mxE addr0 => -[] /eqP.
by rewrite (negbTE H10).
Qed.
End Claims.

(** ** Cases *)
(** An evaluation map is a ring morphism that leaves its values alone; those are its scalars. *)
Section Evaluations.
Variables (E : comUnitRingType) (e : {rmorphism E -> E}).

Definition fixed : {pred E} := fun x => e x == x.
Lemma fixedP x : reflect (e x = x) (x \in fixed). Proof. exact: eqP. Qed.
Lemma fixed_closed : divring_closed fixed.
Proof.
split=> [|x y /fixedP Hx /fixedP Hy|x y /fixedP Hx /fixedP Hy]; apply/fixedP.
- exact: rmorph1.
- by rewrite rmorphB Hx Hy.
rewrite rmorphM Hx; case: (boolP (y \is a GRing.unit)) => Hu; first by rewrite rmorphV // Hy.
by rewrite invr_out // Hy.
Qed.
Lemma fixed_lin : lin_over fixed e.
Proof. by split=> [x y|x a /fixedP Ha]; rewrite ?rmorphD ?rmorphM ?Ha. Qed.
(** one constraint [e u = kappa] with the constant support function *)
Lemma fixed_posed k : well_posed fixed [:: e : E -> E] [:: k] [:: 1].
Proof.
split=> //.
- by split; [exact: fixed_closed|move=> c [<-|//]; exact: fixed_lin].
- by rewrite unitmxE /support det_mx11 mxE /= rmorph1 unitr1.
- by move=> i j; rewrite mxE !ord1 /= rmorph1; case: fixed_closed.
Qed.
End Evaluations.
(** Polynomials in two variables; evaluation of each of them at 0. *)
Definition E2 : comUnitRingType := [comUnitRingType of {poly {poly rat}}].
Definition ev_x : {rmorphism E2 -> E2} := [rmorphism of polyC \o horner_eval (0 : {poly rat})].
Definition ev_y : {rmorphism E2 -> E2} := [rmorphism of map_poly (polyC \o horner_eval (0 : rat))].
Example C47_ex (g w : E2) : exists u v, [/\
  expression [:: ev_x : E2 -> E2] [:: ev_x w] [:: 1] g = Some u,
  expression [:: ev_y : E2 -> E2] [:: ev_y w] [:: 1] u = Some v,
  ev_x v = ev_x w & ev_y v = ev_y w].
Proof.
have Hx x : ev_x (ev_x x) = ev_x x by rewrite /= /horner_eval !hornerC.
have Hy x : ev_y (ev_y x) = ev_y x.
  by rewrite /=; apply/polyP=> i; rewrite !coef_map /= /horner_eval !hornerC.
have Hc x : ev_x (ev_y x) = ev_y (ev_x x).
  rewrite -[ev_y (ev_x x)]/(map_poly (polyC \o horner_eval (0 : rat)) (horner_eval 0 x)%:P) map_polyC.
  have h0 (R : comRingType) (p : {poly R}) : horner_eval 0 p = p`_0 by rewrite /horner_eval horner_coef0.
  by congr polyC; rewrite (h0 _ (map_poly _ x)) coef_map /= (h0 _ x).
have Hin (e : {rmorphism E2 -> E2}) (H : forall x, e (e x) = e x) x : e x \in fixed e by apply/fixedP.
have [|x|i j|c d x [<-|//] [<-|//]|i j|u Hu HD] := C47_recursive (fixed_posed ev_x (ev_x w)) (fixed_posed ev_y (ev_y w)) (g := g).
- by case=> // _; rewrite /= -[_ - _]/(ev_x w - ev_x g) -rmorphB; apply: Hin.
- by rewrite inE => /eqP->; apply/fixedP; rewrite rmorph1.
- by rewrite mxE !ord1 /= -[map_poly _ _]/(ev_y 1) rmorph1; apply/fixedP; rewrite rmorph1.
- exact: Hc.
- by case: i j => [|i] [|j] // _ _; exact: Hc.
case: HD => [[|j] // _|v Hv [Hs Ht]].
  by rewrite /= -[_ - _]/(ev_y w - ev_y u) -rmorphB; apply: Hin.
by exists u, v; split=> //; [apply: (Hs 0%N)|apply: (Ht 0%N)].
Qed.
(** An assignment history in which phi is replaced before ce is used. *)
Example C46_ex (E : comUnitRingType) (p : smx E) g : phi_first false [:: GetPhi E; SetPhi p; GetCe E; SetG g; SetPhi p; GetCe E].
Proof. by []. Qed.

Print Assumptions C44_satisfies.
Print Assumptions C44_singular.
Print Assumptions C44_shapes.
Print Assumptions C45_every_solution.
Print Assumptions C45_twice.
Print Assumptions C46_reads_partial.
Print Assumptions C46_without_phi_partial.
Print Assumptions C46_phi_after_ce_refuted.
Print Assumptions C47_recursive.
Print Assumptions C48_decides.
Print Assumptions C48_true.
Print Assumptions C47_ex.
