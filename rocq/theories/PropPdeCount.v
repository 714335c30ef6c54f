(** C96: how many coefficients of a constrained expression in several variables matter. *)
From Coq Require Import ZArith Lia Reals Lra.
From Coquelicot Require Import Coquelicot.
From mathcomp Require Import all_ssreflect all_algebra.
From Verif Require Import Base Numbers ModelBFPy SpecBasis ModelND SpecND ModelELM SpecELM ModelNELM SpecNELM ModelUtfc SpecUtfc ModelMtfc SpecMtfc ProofMtfc
  ModelOde SpecOde ModelPde SpecPde ProofPde ProofPde2 ProofPde3 ProofPde4 PropNELM PropNColl PropPde PropPdeCoef.
Set Implicit Arguments.
Unset Strict Implicit.
Unset Printing Implicit Defensive.

(** the vectors of [d] natural numbers with sum at most [m] *)
Definition incr (v : seq nat) : seq nat := if v is a :: v' then a.+1 :: v' else [::].
Fixpoint vecs (d : nat) : nat -> seq (seq nat) :=
  match d with
  | 0 => fun _ => [:: [::]]
  | d'.+1 => fix g m := match m with
      | 0 => map (cons 0%N) (vecs d' 0)
      | m'.+1 => map (cons 0%N) (vecs d' m'.+1) ++ map incr (g m') end
  end.

Lemma vecs0 d : vecs d.+1 0 = map (cons 0%N) (vecs d 0). Proof. by []. Qed.
Lemma vecsS d m : vecs d.+1 m.+1 = map (cons 0%N) (vecs d m.+1) ++ map incr (vecs d.+1 m). Proof. by []. Qed.

Lemma vecs_size d : forall m, size (vecs d m) = 'C(m + d, d).
Proof.
elim: d => [|d IH] m; first by rewrite bin0.
elim: m => [|m IHm]; first by rewrite vecs0 size_map IH !add0n !binn.
by rewrite vecsS size_cat !size_map IH IHm addSn addnS binS -!addSnnS addSn addnC.
Qed.

Lemma vecs_mem d : forall m (v : seq nat), (v \in vecs d m) = (size v == d) && (seq.sumn v <= m)%N.
Proof.
elim: d => [|d IH] m v.
  by rewrite mem_seq1; case: v => [|a v] //=.
elim: m v => [|m IHm] v.
  rewrite vecs0; apply/mapP/andP.
    case=> w Hw ->; move: Hw; rewrite IH => /andP [/eqP E H]; by rewrite /= E eqxx add0n.
  case: v => [|a v] [] //= /eqP [E] H; exists v.
    by rewrite IH E eqxx /=; apply: leq_trans H; exact: leq_addl.
  by congr cons; move: H; rewrite leqn0 addn_eq0 => /andP [/eqP -> _].
rewrite vecsS mem_cat; case: v => [|[|a] v].
- rewrite /=; apply/negbTE; rewrite negb_or; apply/andP; split; apply/mapP => -[w] //.
  by case: w => [|b w] //; rewrite IHm.
- have E1 : (0 :: v \in map (cons 0) (vecs d m.+1))%N = (v \in vecs d m.+1).
    by apply: mem_map => x y [].
  rewrite E1 IH /= eqSS add0n; apply/orP/idP; last by left.
  by case=> // /mapP [[|b w]] // _.
- have E1 : (a.+1 :: v \in map (cons 0) (vecs d m.+1))%N = false by apply/negbTE/mapP => -[w].
  rewrite E1 /=; apply/mapP/idP.
    by case=> -[|b w] //=; rewrite IHm /= => H [-> ->]; rewrite addSn ltnS.
  move=> H; exists (a :: v) => //; by rewrite IHm /=; move: H; rewrite addSn ltnS.
Qed.

Lemma vecs_uniq d : forall m, uniq (vecs d m).
Proof.
elim: d => [|d IH] m //.
elim: m => [|m IHm]; first by rewrite vecs0 map_inj_uniq // => x y [].
rewrite vecsS cat_uniq map_inj_uniq ?IH; last by move=> x y [].
apply/andP; split=> //; apply/andP; split.
  by apply/hasPn => x /mapP [[|a w]] Hw -> /=; apply/mapP => -[] // w' _.
rewrite map_inj_in_uniq // => -[|a x] [|b y]; rewrite !vecs_mem //=.
by move=> _ _ [-> ->].
Qed.

(** adding the thresholds *)
Fixpoint addv (n v : seq nat) : seq nat := match n, v with a :: n', b :: v' => (a + b)%N :: addv n' v' | _, _ => [::] end.
Fixpoint subv (n v : seq nat) : seq nat := match n, v with a :: n', b :: v' => (b - a)%N :: subv n' v' | _, _ => [::] end.

Lemma addv_inj n : forall v w, size v = size n -> size w = size n -> addv n v = addv n w -> v = w.
Proof.
elim: n => [|a n IH] [|b v] [|c w] //= [Ev] [Ew] [E1 E2].
by move/eqP: E1; rewrite eqn_add2l => /eqP ->; rewrite (IH v w).
Qed.

Lemma addv_size n : forall v, size v = size n -> size (addv n v) = size n.
Proof. by elim: n => [|a n IH] [|b v] //= [E]; rewrite IH. Qed.
Lemma addv_sum n : forall v, size v = size n -> seq.sumn (addv n v) = (seq.sumn n + seq.sumn v)%N.
Proof. by elim: n => [|a n IH] [|b v] //= [E]; rewrite IH // addnACA. Qed.

(** beyond the thresholds *)
Lemma needed_cons cs css a v : needed (cs :: css) (a :: v) <-> (length cs <= a)%N /\ needed css v.
Proof.
split=> [H|[H1 H2] [|k] cs' /=].
- split; first by apply/leP; exact: (H 0%N cs erefl).
  by move=> k cs' E; exact: (H k.+1 cs' E).
- by case=> <-; apply/leP.
- exact: H2.
Qed.

Lemma addv_needed css : forall v, size v = size css -> needed css (addv (map (@length _) css) v).
Proof.
elim: css => [|cs css IH] [|b v] //= E; first by move=> [|k] cs.
by apply/needed_cons; split; [exact: leq_addr|apply: IH; case: E].
Qed.

Lemma needed_addv css : forall v, size v = size css -> needed css v ->
  exists w, [/\ size w = size css, v = addv (map (@length _) css) w & seq.sumn v = (seq.sumn (map (@length _) css) + seq.sumn w)%N].
Proof.
elim: css => [|cs css IH] [|b v] // E H; first by exists [::].
have [H1 H2] := proj1 (needed_cons _ _ _ _) H.
have [w [E1 E2 E3]] := IH v (eq_add_S _ _ E) H2.
exists ((b - length cs)%N :: w); split; first by rewrite /= E1.
  by cbn [map addv]; rewrite -E2 subnKC.
change (b + seq.sumn v = (length cs + seq.sumn (map (@length _) css)) + (b - length cs + seq.sumn w))%N.
by rewrite E3 addnACA subnKC.
Qed.

Lemma list_sum_sumn v : List.list_sum v = seq.sumn v.
Proof. by elim: v => //= a v IH; rewrite /List.list_sum /= in IH *; rewrite IH. Qed.

Lemma NoDup_uniq (T : eqType) (s : seq T) : uniq s -> List.NoDup s.
Proof.
elim: s => [|a s IH] /=; first by constructor.
case/andP=> H1 H2; constructor; last exact: IH.
by move=> H; move/negP: H1; apply; elim: s H {IH H2} => //= b s IH [->|/IH H]; rewrite in_cons ?eqxx // H orbT.
Qed.

Lemma In_mem (T : eqType) (s : seq T) x : List.In x s <-> x \in s.
Proof.
elim: s => //= b s IH; rewrite in_cons; split.
  by case=> [->|/IH ->]; rewrite ?eqxx ?orbT.
by case/orP => [/eqP ->|/IH]; [left|right].
Qed.

Lemma nth_error_nth (T : Type) (d : T) (s : seq T) : forall i, (i < size s)%N -> List.nth_error s i = Some (nth d s i).
Proof. by elim: s => [|a s IH] [|i] //= H; apply: IH. Qed.
Lemma nth_error_lt (T : Type) (d : T) (s : seq T) i v : List.nth_error s i = Some v -> (i < size s)%N /\ nth d s i = v.
Proof. by elim: s i => [|a s IH] [|i] //=; [case=> ->|move/IH]. Qed.

Definition num_conds (css : seq (seq pcond)) : nat := seq.sumn (map (@length _) css).

(** With [n] conditions in all, the coefficients that matter are as many as the products of total degree
    at most [deg - n]; none if there are more conditions than the degree. *)
Theorem C96_count : forall jvpn be f ns nC deg dim x0 xf w b u css phis,
  pde_setting jvpn be f ns nC deg dim x0 xf w b u css phis -> f <> FS ->
  exists js : seq nat, List.NoDup js /\
  length js = (if (num_conds css <= deg)%N then 'C(deg - num_conds css + dim, dim) else 0%N) /\
  (forall j, List.In j js -> Peano.lt j (mtfc_num u false)) /\
  forall xi xi' z, surface jvpn u dim css phis xi z ->
    (surface jvpn u dim css phis xi' z <-> forall j, List.In j js -> xi j = xi' j).
Proof.
move=> jvpn be f ns nC deg dim x0 xf w b u css phis Hset Hf.
have [idx [Hnd [Hn [Hm [_ Hall]]]]] := C96_which_matter Hset Hf.
have [Hj [Hdim [Hx [Hu [HnC [[Hl _] Hph]]]]]] := Hset.
set n := map (@length _) css.
have Hsn : size n = dim by rewrite size_map; exact: Hl.
set L := if (num_conds css <= deg)%N then map (addv n) (vecs dim (deg - num_conds css)) else [::].
have HLu : uniq L.
  rewrite /L; case: ifP => // _; rewrite map_inj_in_uniq ?vecs_uniq // => x y.
  by rewrite !vecs_mem => /andP [/eqP Ex _] /andP [/eqP Ey _]; apply: addv_inj; rewrite ?Ex ?Ey Hsn.
have HLm (v : seq nat) : v \in L <-> [/\ size v = dim, (seq.sumn v <= deg)%N & needed css v].
  split.
    rewrite /L; case: ifP => // Hle /mapP [x]; rewrite vecs_mem => /andP [/eqP Ex Hs] ->.
    split; first by rewrite addv_size ?Hsn.
      by rewrite addv_sum ?Ex ?Hsn // -[X in (_ <= X)%N](subnKC Hle) leq_add2l.
    by apply: addv_needed; rewrite Ex; symmetry; exact: Hl.
  case=> Ev Hs Hv.
  have [x [E1 E2 E3]] := needed_addv (etrans Ev (esym Hl)) Hv.
  have Hle : (num_conds css <= deg)%N by apply: leq_trans Hs; rewrite E3 leq_addr.
  rewrite /L Hle E2; apply: map_f; rewrite vecs_mem E1 (_ : size css = dim) ?eqxx //=.
  by rewrite -(leq_add2l (num_conds css)) subnKC // /num_conds -E3.
have HLi (v : seq nat) : v \in L -> v \in idx.
  case/HLm => Ev Hs Hv; apply/In_mem/Hm; split; first exact: Ev.
  split; first by rewrite list_sum_sumn; apply/leP.
  case Ec: css => [|cs css'].
    by exfalso; move: Hl Hdim; rewrite Ec /= => <- Hd; inversion Hd.
  exists 0%N, cs; split=> //; apply: (Hv 0%N cs); by rewrite Ec.
exists (map (index^~ idx) L); split; last split; last split.
- apply: NoDup_uniq; rewrite map_inj_in_uniq // => x y Hx1 Hy1 E.
  by rewrite -(nth_index [::] (HLi _ Hx1)) E nth_index // HLi.
- transitivity (size L); first exact: size_map.
  by rewrite /L; case: ifP => // _; rewrite size_map vecs_size.
- move=> j /In_mem /mapP [v Hv ->]; rewrite Hn; apply/ltP; rewrite -[length idx]/(size idx) index_mem; exact: HLi.
- move=> xi xi' z Hz; rewrite (Hall xi xi' z Hz); split=> H.
    move=> j /In_mem /mapP [v Hv ->]; apply: (H _ v); last by case/HLm: Hv.
    by rewrite (nth_error_nth [::]) ?nth_index ?index_mem ?HLi.
  move=> i v Hi Hv; have [Hlt Env] := nth_error_lt [::] Hi.
  have [Ev [Hs _]] := proj1 (Hm v) (List.nth_error_In _ _ Hi).
  apply: H; apply/In_mem/mapP; exists v.
    by apply/HLm; split=> //; rewrite -list_sum_sumn; apply/leP.
  rewrite -Env index_uniq //.
  elim: (idx) Hnd => // a s IH H; inversion_clear H as [|? ? Ha Hs']; rewrite cons_uniq IH // andbT.
  by apply/negP => /In_mem.
Qed.
Print Assumptions C96_count.

(** one condition in each of two variables, degree 2: of the five coefficients one matters; with degree
    10 and two conditions in each of two variables, 28 of 62 do *)
Example C96_count_case : exists u, mkm Py (MB CP) [:: 3; 3]%N (MList [:: EInt (Zpos xH); EInt (Zpos xH)]) 2 2 [:: R0; R0] [:: R1; R1] [::] [::] = Some u /\
  exists js, length js = 1%N /\
  forall xi xi' z, surface cjvpn u 2 ex_css ex_phis xi z -> (surface cjvpn u 2 ex_css ex_phis xi' z <-> forall j, List.In j js -> xi j = xi' j).
Proof.
have [u [Hu Hset]] := ex_setting; exists u; split; first exact: Hu.
have Hf : CP <> FS by [].
have [js [_ [El [_ Hall]]]] := C96_count Hset Hf.
by exists js; split; first exact: El.
Qed.

Example C96_count_numbers : ('C(10 - 4 + 2, 2) = 28 /\ size [seq v <- vecs 2 10 | (2 <= nth 0 v 0) || (2 <= nth 0 v 1)] = 62)%N.
Proof. by []. Qed.
