(** C119: constrained expressions in any number of variables, in any order. *)
From Coq Require Import List Permutation.
From mathcomp Require Import all_ssreflect all_algebra.
From Verif Require Import ModelCe SpecCe ProofCe PropCe SpecCeN.
Set Implicit Arguments.
Unset Strict Implicit.
Unset Printing Implicit Defensive.
Import GRing.Theory.
Local Open Scope ring_scope.

Section Claims.
Variable E : comUnitRingType.
Implicit Types (a b : block E) (bs : seq (block E)) (g : E).

Lemma apart_sym a b : apart a b -> apart b a.
Proof. by case=> H1 H2 [H3 H3'] H4 H5; split=> //; [move=> c d x Hc Hd; rewrite (H4 d c x Hd Hc)|move=> i j Hi Hj; rewrite (H5 j i Hj Hi)]. Qed.
Lemma sound_posed b : sound b -> well_posed (b_Sc b) (b_C b) (b_K b) (b_s b).
Proof.
case=> H1 H2 [H3 H3'] H4 [H5 _]; split=> // i j; rewrite mxE; apply: H5; exact: nth_in.
Qed.
Lemma sound_scalar b g : sound b -> scalar_data (b_Sc b) (b_C b) (b_K b) g.
Proof.
case=> H1 [_ HK] [H3 _] _ [H5 H6] j Hj; apply: (inB H3); last by apply: H5; exact: nth_in.
by apply: H6; rewrite mem_nth // HK.
Qed.
(** the switching functions and the expression *)
Definition ph b (j : nat) : E := sw (b_C b) (b_s b) j.
Lemma block_value b g : sound b ->
  expression (b_C b) (b_K b) (b_s b) g = Some (g + \sum_(j < size (b_C b)) ph b j * (nth 0 (b_K b) j - (nth id (b_C b) j) g)).
Proof. by case=> H1 [H2 H2'] _ H4 _; exact: expression_some. Qed.
Lemma ph_constant a b j : sound a -> sound b -> apart a b -> (j < size (b_C b))%N -> ph b j \in b_Sc a.
Proof.
move=> [_ _ [Hcl _] _ _] [_ [Hs _] _ _ _] [H1 _ [H3 _] _ _] Hj; rewrite /ph /sw.
apply: (in_sum Hcl) => k; apply: (inM Hcl); first by apply: H1; rewrite mem_nth // Hs.
by rewrite insubT /=; apply: (inv_in Hcl).
Qed.
(** applying an operator of one to the expression of the other *)
Lemma cross a b g i : sound a -> sound b -> apart a b -> (i < size (b_C a))%N ->
  (nth id (b_C a) i) (g + \sum_(j < size (b_C b)) ph b j * (nth 0 (b_K b) j - (nth id (b_C b) j) g)) =
  (nth id (b_C a) i) g + \sum_(j < size (b_C b)) ph b j * ((nth id (b_C b) j) (nth 0 (b_K a) i) - (nth id (b_C b) j) ((nth id (b_C a) i) g)).
Proof.
move=> Ha Hb Hab Hi; have [_ _ [Hcl Hlin] _ _] := Ha; have [_ _ _ Hcomm Hcons] := Hab.
have Hc := nth_in Hi; have [Hadd Hm] := Hlin _ Hc.
have HB x y : (nth id (b_C a) i) (x - y) = (nth id (b_C a) i) x - (nth id (b_C a) i) y.
  by apply: (@addIr _ ((nth id (b_C a) i) y)); rewrite subrK -Hadd subrK.
rewrite Hadd (lin_sum Hlin) //; congr (_ + _); apply: eq_bigr => j _.
rewrite mulrC Hm; last exact: ph_constant.
by rewrite HB Hcons // (Hcomm _ _ _ Hc (nth_in (ltn_ord j))) mulrC.
Qed.
Lemma keeps a b g v : sound a -> sound b -> apart a b -> satisfies (b_C a) (b_K a) g ->
  expression (b_C b) (b_K b) (b_s b) g = Some v -> satisfies (b_C a) (b_K a) v.
Proof.
move=> Ha Hb Hab Hg; rewrite block_value // => -[<-] i Hi; rewrite cross // Hg //.
by rewrite big1 ?addr0 // => j _; rewrite subrr mulr0.
Qed.
Lemma nested_ok bs : (forall b, List.In b bs -> sound b) -> all_apart bs -> forall g, exists v, nested bs g = Some v /\
  (forall b, List.In b bs -> satisfies (b_C b) (b_K b) v) /\
  (forall a, sound a -> (forall b, List.In b bs -> apart a b) -> satisfies (b_C a) (b_K a) g -> satisfies (b_C a) (b_K a) v).
Proof.
elim: bs => [|b bs IH] Hs Hd g; first by exists g.
case: Hd => Hb Hd; have Sb := Hs b (or_introl erefl).
have [u Hu Hsat] := C44_satisfies (sound_posed Sb) (sound_scalar g Sb).
have [|v [Hv [H1 H2]]] := IH _ Hd u; first by move=> x Hx; apply: Hs; right.
exists v; rewrite /= Hu; split=> //; split.
  by move=> x [<-|Hx]; [exact: H2|exact: H1].
move=> a Sa Ha Hg; apply: H2 => //; first by move=> x Hx; apply: Ha; right.
by apply: keeps Hg Hu => //; apply: Ha; left.
Qed.
Lemma swap a b g : sound a -> sound b -> apart a b -> nested [:: a; b] g = nested [:: b; a] g.
Proof.
move=> Ha Hb Hab; have Hba := apart_sym Hab.
rewrite /= !block_value //; congr Some; rewrite -!addrA; congr (_ + _).
pose A j := nth 0 (b_K a) j - (nth id (b_C a) j) g; pose B j := nth 0 (b_K b) j - (nth id (b_C b) j) g.
have Eb : \sum_(j < size (b_C b)) ph b j * (nth 0 (b_K b) j - (nth id (b_C b) j) (g + \sum_(i < size (b_C a)) ph a i * A i)) =
    \sum_(j < size (b_C b)) ph b j * B j - \sum_(j < size (b_C b)) \sum_(i < size (b_C a)) ph b j * ph a i * ((nth id (b_C a) i) (nth 0 (b_K b) j) - (nth id (b_C a) i) ((nth id (b_C b) j) g)).
  rewrite -sumrB; apply: eq_bigr => j _; rewrite cross // opprD addrA mulrDr mulrN mulr_sumr; congr (_ - _).
  by apply: eq_bigr => i _; rewrite mulrA.
have Ea : \sum_(i < size (b_C a)) ph a i * (nth 0 (b_K a) i - (nth id (b_C a) i) (g + \sum_(j < size (b_C b)) ph b j * B j)) =
    \sum_(i < size (b_C a)) ph a i * A i - \sum_(i < size (b_C a)) \sum_(j < size (b_C b)) ph a i * ph b j * ((nth id (b_C b) j) (nth 0 (b_K a) i) - (nth id (b_C b) j) ((nth id (b_C a) i) g)).
  rewrite -sumrB; apply: eq_bigr => i _; rewrite cross // opprD addrA mulrDr mulrN mulr_sumr; congr (_ - _).
  by apply: eq_bigr => j _; rewrite mulrA.
rewrite Eb Ea !addrA [X in X - _]addrC; congr (_ - _); rewrite exchange_big; apply: eq_bigr => i _; apply: eq_bigr => j _.
have [_ _ _ Hcomm Hcons] := Hab.
by rewrite [ph b j * _]mulrC Hcons // (Hcomm _ _ _ (nth_in (ltn_ord i)) (nth_in (ltn_ord j))).
Qed.
Lemma apart_perm bs bs' : Permutation bs bs' -> all_apart bs -> all_apart bs'.
Proof.
elim=> //=.
- by move=> x l l' Hp IH [H1 H2]; split; [move=> a Ha; apply: H1; apply: Permutation_in Ha; exact: Permutation_sym|exact: IH].
- move=> x y l [H1 [H2 H3]]; split.
    by move=> a [<-|Ha]; [apply: apart_sym; apply: H1; left|exact: H2].
  by split=> // a Ha; apply: H1; right.
- by move=> l l' l'' _ IH1 _ IH2 H; apply: IH2; exact: IH1.
Qed.
Lemma nested_perm bs bs' : Permutation bs bs' -> (forall b, List.In b bs -> sound b) -> all_apart bs -> forall g, nested bs g = nested bs' g.
Proof.
elim=> //=.
- move=> x l l' Hp IH Hs [_ Hd] g; case: (expression _ _ _ g) => // u; apply: IH => // b Hb; apply: Hs; by right.
- move=> x y l Hs [H1 _] g.
  have Hyx := swap g (Hs y (or_introl erefl)) (Hs x (or_intror (or_introl erefl))) (H1 x (or_introl erefl)).
  move: Hyx => /=; case: (expression (b_C y) _ _ g) => [u|]; case: (expression (b_C x) _ _ g) => [w|] //=.
  + by case: (expression (b_C x) _ _ u) => [?|]; case: (expression (b_C y) _ _ w) => [?|] // [->].
  + by case: (expression (b_C x) _ _ u).
  + by case: (expression (b_C y) _ _ w).
- move=> l l' l'' H1 IH1 _ IH2 Hs Hd g; rewrite IH1 // IH2 //; last exact: apart_perm H1 Hd.
  by move=> b Hb; apply: Hs; apply: Permutation_in Hb; exact: Permutation_sym.
Qed.

(** ** C119 *)
(** With any number of sets of conditions on different variables, the expression of each the free function
    of the next, the last expression exists for every free function and satisfies all conditions. *)
Theorem C119_satisfies bs g : (forall b, List.In b bs -> sound b) -> all_apart bs ->
  exists v, nested bs g = Some v /\ forall b, List.In b bs -> satisfies (b_C b) (b_K b) v.
Proof. by move=> Hs Hd; have [v [Hv [H _]]] := nested_ok Hs Hd g; exists v. Qed.
(** The order in which the sets of conditions are used makes no difference. *)
Theorem C119_any_order bs bs' g : Permutation bs bs' -> (forall b, List.In b bs -> sound b) -> all_apart bs ->
  nested bs g = nested bs' g.
Proof. by move=> Hp Hs Hd; exact: nested_perm. Qed.
(** A function that satisfies all conditions is what it gives; so the values are exactly these functions. *)
Theorem C119_every_solution bs v : (forall b, List.In b bs -> sound b) -> all_apart bs ->
  (forall b, List.In b bs -> satisfies (b_C b) (b_K b) v) <-> exists g, nested bs g = Some v.
Proof.
move=> Hs Hd; split=> [H|[g Hg]]; last first.
  by have [v' [Hv H]] := C119_satisfies g Hs Hd; move: Hv; rewrite Hg => -[->].
exists v; elim: bs Hs Hd H => //= b bs IH Hs [_ Hd] H.
have [H1 [H2 H2'] _ H4 _] := Hs b (or_introl erefl).
rewrite C45_every_solution //; last by apply: H; left.
by apply: IH => // x Hx; [apply: Hs|apply: H]; right.
Qed.
End Claims.
Print Assumptions C119_satisfies.
Print Assumptions C119_any_order.
Print Assumptions C119_every_solution.

(** ** A case: three variables *)
Section Evaluations.
Variable E : comUnitRingType.
(** [u = w] where a variable has some value *)
Definition at_value (e : {rmorphism E -> E}) (w : E) : block E := Block [:: e : E -> E] [:: e w] [:: 1] (fixed e).
Lemma at_sound (e : {rmorphism E -> E}) w : (forall x, e (e x) = e x) -> sound (at_value e w).
Proof.
move=> He; have [H1 H2 H3 H4 _] := fixed_posed e (e w); split=> //; split=> [c x [<-|//]|k]; first exact/fixedP.
by rewrite inE => /eqP ->; exact/fixedP.
Qed.
Lemma at_apart (e f : {rmorphism E -> E}) w : (forall x, e (f x) = f (e x)) -> apart (at_value e w) (at_value f w).
Proof.
move=> Hc; have one (h : {rmorphism E -> E}) : 1 \in fixed h by apply/fixedP; rewrite rmorph1.
split=> /=.
- by move=> x; rewrite /= inE => /eqP ->; exact: one.
- by move=> x; rewrite /= inE => /eqP ->; exact: one.
- by split=> i j; rewrite mxE !ord1 /= rmorph1; exact: one.
- by move=> c d x [<-|//] [<-|//].
- by case=> [|i] [|j] //= _ _; exact: Hc.
Qed.
End Evaluations.
(** polynomials in three variables; each of them set to 0 *)
Definition E3 : comUnitRingType := [comUnitRingType of {poly {poly {poly rat}}}].
Definition out (R : comRingType) : {rmorphism {poly R} -> {poly R}} := [rmorphism of polyC \o horner_eval (0 : R)].
Definition inside (R : ringType) (e : {rmorphism R -> R}) : {rmorphism {poly R} -> {poly R}} := [rmorphism of map_poly e].
Definition in_x : {rmorphism E3 -> E3} := out [comRingType of {poly {poly rat}}].
Definition in_y : {rmorphism E3 -> E3} := inside (out [comRingType of {poly rat}]).
Definition in_z : {rmorphism E3 -> E3} := inside (inside (out [comRingType of rat])).
Lemma out_out (R : comRingType) (x : {poly R}) : out R (out R x) = out R x.
Proof. by rewrite /= /horner_eval !hornerC. Qed.
Lemma inside_idem (R : ringType) (e : {rmorphism R -> R}) : (forall x, e (e x) = e x) -> forall x, inside e (inside e x) = inside e x.
Proof. by move=> He x; apply/polyP => i; rewrite /= !coef_map /= He. Qed.
Lemma out_inside (R : comRingType) (e : {rmorphism R -> R}) (x : {poly R}) : out R (inside e x) = inside e (out R x).
Proof.
rewrite -[inside e (out R x)]/(map_poly e (horner_eval 0 x)%:P) map_polyC.
by congr polyC; rewrite /= /horner_eval !horner_coef0 coef_map.
Qed.
Lemma inside_inside (R : ringType) (e f : {rmorphism R -> R}) : (forall x, e (f x) = f (e x)) -> forall x, inside e (inside f x) = inside f (inside e x).
Proof. by move=> He x; apply/polyP => i; rewrite /= !coef_map /= He. Qed.
Example C119_ex (g w : E3) : exists v,
  [/\ nested [:: at_value in_x w; at_value in_y w; at_value in_z w] g = Some v,
      nested [:: at_value in_z w; at_value in_x w; at_value in_y w] g = Some v,
      in_x v = in_x w, in_y v = in_y w & in_z v = in_z w].
Proof.
pose bs := [:: at_value in_x w; at_value in_y w; at_value in_z w].
have Hs b : List.In b bs -> sound b.
  by move=> [<-|[<-|[<-|[]]]]; apply: at_sound; [exact: out_out|apply: inside_idem; exact: out_out|apply: inside_idem; apply: inside_idem; exact: out_out].
have Hd : all_apart bs.
  split; first by move=> b [<-|[<-|[]]]; apply: at_apart; exact: out_inside.
  split; last by split.
  by move=> b [<-|[]]; apply: at_apart; apply: inside_inside; exact: out_inside.
have [v [Hv H]] := C119_satisfies g Hs Hd; exists v; split=> //.
- rewrite -Hv; symmetry; apply: C119_any_order => //.
  exact: (Permutation_sym (Permutation_cons_append [:: at_value in_x w; at_value in_y w] (at_value in_z w))).
- exact: (H _ (or_introl erefl) 0%N erefl).
- exact: (H _ (or_intror (or_introl erefl)) 0%N erefl).
- exact: (H _ (or_intror (or_intror (or_introl erefl))) 0%N erefl).
Qed.
