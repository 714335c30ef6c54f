(** Which coefficients of a constrained expression in several variables matter (C96). *)
From Coq Require Import Reals Arith Lia Lra List Bool ZArith.
From Coquelicot Require Import Coquelicot.
From Verif Require Import Base ProofBase Numbers ModelBFPy ModelBFCpp ProofTab ProofBFPy ProofBFCpp SpecBasis
  ProofH ModelELM SpecELM ProofELM ModelND SpecND ProofND ProofND2 ModelNELM SpecNELM ProofNELM ProofNELM2
  ModelUtfc SpecUtfc ProofUtfc ModelMtfc SpecMtfc ProofMtfc ProofMtfc2 ProofMtfc3 ProofIndep SpecColl ProofColl PropColl SpecNColl ProofNColl ProofNRecover.
From Verif Require Import ModelOde SpecOde ProofOde PropOde ModelPde SpecPde ProofPde ProofPde2 ProofPde3.
Import ListNotations.
Open Scope R_scope.

(** ** the stages on a product *)
Definition fac (phis : list (list (list R))) (css : list (list pcond)) (k : nat) (g : nat -> R -> R) (i : nat) : R -> R :=
  if Nat.ltb i k then g i else
  match nth_error phis (i - k), nth_error css (i - k) with Some phi, Some cs => factor phi cs (g i) | _, _ => g i end.
Lemma factor_ext phi cs h h' t : (forall t, h t = h' t) -> factor phi cs h t = factor phi cs h' t.
Proof.
  intros E. unfold factor. rewrite E. f_equal. f_equal. apply map_ext. intros pc. f_equal. apply Derive_n_ext, E.
Qed.
Lemma stages_product dim phis : forall css k z g, (k + length css <= dim)%nat -> (forall X, z X = prodn dim (fun i => g i (X i))) ->
  forall X, stages k phis (map (map zero_val) css) z X = prodn dim (fun i => fac phis css k g i (X i)).
Proof.
  induction phis as [|phi phis IH]; intros css k z g Hd Hz X.
  - cbn [stages]. rewrite Hz. apply prodn_ext. intros i _. unfold fac. destruct (Nat.ltb i k); [reflexivity|]. destruct (i - k)%nat; reflexivity.
  - destruct css as [|cs css]; cbn [map stages].
    + rewrite Hz. apply prodn_ext. intros i _. unfold fac. destruct (Nat.ltb i k); [reflexivity|]. destruct (i - k)%nat; [reflexivity|]. cbn. destruct (nth_error phis n); reflexivity.
    + cbn [length] in Hd. rewrite (IH css (S k) _ (repl g k (factor phi cs (g k)))); [|lia|intros Y; apply stage_prod; [lia|exact Hz]].
      apply prodn_ext. intros i _. unfold fac, repl. destruct (Nat.ltb_spec i (S k)), (Nat.ltb_spec i k), (Nat.eqb_spec i k); try lia; try reflexivity.
      * subst i. rewrite Nat.sub_diag. reflexivity.
      * replace (i - k)%nat with (S (i - S k)) by lia. reflexivity.
Qed.
(** a factor of high degree keeps its degree *)
Lemma factor_high phi cs h r : switching (one_variable cs) phi -> (length cs < length r)%nat -> last r 0 <> 0 -> (forall t, h t = peval r t) ->
  exists l, length l = length r /\ last l 0 <> 0 /\ forall t, factor phi cs h t = peval l t.
Proof.
  intros Hs Hr Hl Hh.
  assert (exists s, (length s <= length cs)%nat /\ forall t, fold_right Rplus 0 (map (fun pc => poly_at (fst pc) t * Derive_n h (pc_ord (snd pc)) (pc_pt (snd pc))) (combine phi cs)) = peval s t) as (s & Hls & Es).
  { assert (Hlen : forall p, In p phi -> (length p <= length cs)%nat).
    { intros p Hp. pose proof (proj1 (proj2 Hs) p Hp) as H. unfold one_variable in H. rewrite map_length in H. exact H. }
    assert (Hin : forall pc, In pc (combine phi cs) -> (length (fst pc) <= length cs)%nat).
    { intros [p c] H. apply Hlen. apply in_combine_l in H. exact H. }
    induction (combine phi cs) as [|[p c] L IH]; [exists []; split; [apply Nat.le_0_l|reflexivity]|].
    destruct IH as (s & Hls & Es); [intros pc H; apply Hin; right; exact H|].
    exists (padd (pscale (Derive_n h (pc_ord c) (pc_pt c)) p) s). split.
    - rewrite padd_length, pscale_length. specialize (Hin (p, c) (or_introl eq_refl)). cbn in Hin. lia.
    - intros t. cbn [map fold_right fst snd]. rewrite Es, peval_padd, peval_pscale, poly_at_peval. ring. }
  exists (padd r (pscale (-1) s)). split; [rewrite padd_length, pscale_length; lia|]. split; [rewrite last_padd by (rewrite pscale_length; lia); exact Hl|].
  intros t. unfold factor. rewrite Es, Hh, peval_padd, peval_pscale. ring.
Qed.
Lemma row_comb_agree l : forall a a', (forall i x, nth_error l i = Some x -> a i = a' i \/ x = 0) -> row_comb a l = row_comb a' l.
Proof.
  induction l as [|x l IH]; intros a a' H; [reflexivity|]. cbn. rewrite (IH (fun i => a (S i)) (fun i => a' (S i))) by (intros i y Hi; apply (H (S i) y Hi)).
  f_equal. destruct (H 0%nat x eq_refl) as [-> | ->]; ring.
Qed.

Section Obj.
Variables (be : backend) (f : fam) (n : list nat) (nC : mnc_arg) (deg dim : nat) (x0 xf w b : list R) (u : mtfc (T:=R)).
Variables (css : list (list pcond)) (phis : list (list (list R))).
Hypothesis Hu : mkm be (MB f) n nC deg dim x0 xf w b = Some u.
Hypothesis Hdim : (1 <= dim)%nat.
Hypothesis HnC : entries nC (counts css).
Hypothesis Hx : forall k, (k < dim)%nat -> nth k x0 0 < nth k xf 0.
Hypothesis Hcs : consistent dim css.
Hypothesis Hph : switchings css phis.
Hypothesis Hf : f <> FS.
Notation K full := (mK (MB f) dim deg nC full).
Notation ZZ := (Z f nC deg dim x0 xf css phis).
Notation W v := (stages 0 phis (map (map zero_val) css) (G f dim x0 xf v)).
Definition ess (v : list nat) : bool := forallb (fun k => Nat.leb (length (nth k css [])) (nth k v 0%nat)) (seq 0 dim).
Lemma ess_spec v : ess v = true <-> forall k cs, nth_error css k = Some cs -> (length cs <= nth k v 0)%nat.
Proof.
  unfold ess. rewrite forallb_forall. split.
  - intros H k cs Hk. assert (k < dim)%nat by (rewrite <- (proj1 Hcs); apply nth_error_Some; congruence).
    specialize (H k). rewrite in_seq in H. specialize (H ltac:(lia)). apply Nat.leb_le in H. rewrite (nth_error_nth _ _ _ Hk) in H. exact H.
  - intros H k Hk. apply in_seq in Hk. apply Nat.leb_le. destruct (nth_error css k) as [cs|] eqn:E.
    + rewrite (nth_error_nth _ _ _ E). apply (H k cs E).
    + apply nth_error_None in E. rewrite nth_overflow by exact E. apply Nat.le_0_l.
Qed.
Lemma not_ess v : ess v = false -> forall X, W v X = 0.
Proof.
  intros H. assert (exists k cs, nth_error css k = Some cs /\ (nth k v 0 < length cs)%nat) as (k & cs & Hk & Hlt).
  { assert (forall l, (forall k, In k l -> (k < dim)%nat) -> forallb (fun k => Nat.leb (length (nth k css [])) (nth k v 0%nat)) l = false -> exists k cs, nth_error css k = Some cs /\ (nth k v 0 < length cs)%nat) as HH.
    { induction l as [|k l IH]; intros Hin; [discriminate|]. cbn [forallb]. destruct (Nat.leb_spec (length (nth k css [])) (nth k v 0%nat)) as [Hle|Hlt].
      - intros E. apply IH; [intros k' Hk'; apply Hin; right; exact Hk'|exact E].
      - intros _. exists k, (nth k css []). split; [|exact Hlt]. apply nth_error_nth'. rewrite (proj1 Hcs). apply Hin. left. reflexivity. }
    apply (HH (seq 0 dim)); [intros k Hk; apply in_seq in Hk; lia|exact H]. }
  apply (o_redundant be f n nC deg dim x0 xf w b u css phis Hu Hdim HnC Hx Hcs Hph v k cs Hf Hk Hlt).
Qed.
(** the univariate functions as the stages leave them *)
Definition P (k a : nat) (t : R) : R :=
  if Nat.ltb a (length (nth k css [])) then ndcol f x0 xf k t 0 a else fac phis css 0 (fun i t => ndcol f x0 xf i t 0 a) k t.
Lemma P_graded k : (k < dim)%nat -> graded (P k).
Proof.
  intros Hk a.
  assert (exists r, length r = S a /\ last r 0 <> 0 /\ forall t, ndcol f x0 xf k t 0 a = peval r t) as (r & Hr & Hl & Er).
  { specialize (Hx k Hk).
    assert (Hg : graded (fun i x => ftab f (0 + i) 0 (slope f (nth k x0 0) (nth k xf 0) * x + offset f (nth k x0 0) (nth k xf 0)))).
    { apply cols_graded; [exact Hf|apply slope_nz; [exact Hf|lra]]. }
    destruct (Hg a) as (r & Hr & Hl & E). exists r. split; [exact Hr|]. split; [exact Hl|]. intros t. rewrite <- E.
    rewrite <- zmap_affine by (try lra; assumption). unfold ndcol. cbn [pow]. rewrite Rmult_1_r.
    replace ((t - nth k x0 0) * nd_ci f x0 xf k + nd_z0 f) with (SpecBasis.zmap f (nth k x0 0) (nth k xf 0) t).
    - destruct f; try reflexivity. congruence.
    - unfold nd_ci, nd_z0, nd_zf. destruct (g_offered be f n nC deg dim x0 xf w b u Hu (o_args f nC deg dim x0 xf w b css Hdim HnC)) as [-> |[-> | ->]]; cbn; field; lra. }
  unfold P. destruct (Nat.ltb_spec a (length (nth k css []))) as [Hlt|Hge]; [exists r; auto|].
  unfold fac. cbn [Nat.ltb Nat.leb]. rewrite Nat.sub_0_r.
  destruct (nth_error css k) as [cs|] eqn:Ec; [|apply nth_error_None in Ec; destruct Hcs as [E _]; lia].
  destruct (switchings_nth css phis Hph k cs Ec) as (phi & Ep & Hs). rewrite Ep. rewrite (nth_error_nth _ _ _ Ec) in Hge.
  destruct (factor_high phi cs _ r Hs ltac:(lia) Hl Er) as (l & H1 & H2 & H3). exists l. split; [lia|]. split; [exact H2|exact H3].
Qed.
Lemma W_prod v X : ess v = true -> W v X = prodn dim (fun k => P k (nth k v 0%nat) (X k)).
Proof.
  intros He. rewrite (stages_product dim phis css 0 (G f dim x0 xf v) (fun k t => ndcol f x0 xf k t 0 (nth k v 0%nat))).
  - apply prodn_ext. intros k Hk. unfold P.
    unfold ess in He. rewrite forallb_forall in He. specialize (He k). rewrite in_seq in He. specialize (He ltac:(lia)). apply Nat.leb_le in He.
    destruct (Nat.ltb_spec (nth k v 0%nat) (length (nth k css []))); [lia|]. reflexivity.
  - rewrite (proj1 Hcs). reflexivity.
  - apply G_prod.
Qed.
Lemma Z_determines a a' : (forall X, ZZ a X = ZZ a' X) -> forall i v, nth_error (K false) i = Some v -> ess v = true -> a i = a' i.
Proof.
  intros HZ i v Hi Hv.
  assert (Hnd : NoDup (K false)) by exact (proj1 (g_K f nC deg dim false)).
  assert (Hin : incl (K false) (vecs (S deg) dim)) by exact (proj2 (g_K f nC deg dim false)).
  pose (d := fun i => a i - a' i).
  assert (H0 : forall X, row_comb d (map (fun v => W v X) (K false)) = 0).
  { intros X. specialize (HZ X). rewrite !(Z_comb f nC deg dim x0 xf css phis Hdim Hcs) in HZ.
    assert (E : forall l, row_comb d l = row_comb a l - row_comb a' l).
    { intros l. unfold d. clear. revert a a'. induction l as [|x l IH]; intros a a'; cbn; [ring|]. rewrite (IH (fun i => a (S i)) (fun i => a' (S i))). ring. }
    rewrite E. lra. }
  assert (Hnv : NoDup (vecs (S deg) dim)) by apply vecs_nodup.
  pose (c := fun v => if ess v then cfL (K false) d v else 0).
  assert (Hc : c v = 0).
  { apply (tensor_free P (S deg) (fun _ => map INR (seq 0 (S deg))) dim).
    - intros k Hk e He j Hj. apply (graded_indep (P k) (P_graded k Hk) e (S deg) (map INR (seq 0 (S deg)))); [apply INR_nodup|rewrite map_length, seq_length; lia|exact He|exact Hj].
    - intros X _. pose proof (row_comb_cfL (K false) d (fun v => W v X) (vecs (S deg) dim) Hnv Hin) as HH.
      etransitivity; [|exact (eq_trans (eq_sym HH) (H0 X))].
      apply sumL_ext. intros v' _. unfold c. destruct (ess v') eqn:Ev.
      + rewrite (W_prod v' X Ev). reflexivity.
      + rewrite (not_ess v' Ev X). ring.
    - apply Hin, (nth_error_In _ _ Hi). }
  unfold c in Hc. rewrite Hv, (cfL_at _ _ _ _ Hnd Hi) in Hc. unfold d in Hc. lra.
Qed.
Lemma Z_depends a a' : (forall i v, nth_error (K false) i = Some v -> ess v = true -> a i = a' i) -> forall X, ZZ a X = ZZ a' X.
Proof.
  intros H X. rewrite !(Z_comb f nC deg dim x0 xf css phis Hdim Hcs). f_equal. apply row_comb_agree. intros i x Hi.
  rewrite nth_error_map in Hi. destruct (nth_error (K false) i) as [v|] eqn:Ev; [|discriminate]. injection Hi as <-.
  destruct (ess v) eqn:Ee; [left; apply (H i v Ev Ee)|right; apply (not_ess v Ee)].
Qed.
Lemma o_mem v : In v (K false) <-> length v = dim /\ (list_sum v <= deg)%nat /\ exists k cs, nth_error css k = Some cs /\ (length cs <= nth k v 0)%nat.
Proof.
  pose proof (o_args f nC deg dim x0 xf w b css Hdim HnC) as Ha. pose proof Hu as Hi.
  apply mkm_inv in Hi as (_ & _ & H0 & Hf' & B & z0 & zf & z & x & Es & _ & _).
  destruct (msetup_ok be (MB f) nC deg dim x0 xf w b B z0 zf Ha H0 Hf' Es) as [HB _].
  cbn in HB. destruct HB as (M & EM & Hargs & _). unfold mK. rewrite EM. rewrite idxs_in by (try lia; apply Hargs).
  pose proof EM as EM'. rewrite (entries_rows dim deg nC (counts css) HnC) in EM'.
  assert (EM2 : md M = map (ent_row (Z.to_nat (nc_max (counts css)))) (counts css)).
  { unfold mtfc_rows in EM'. destruct (Nat.eqb (length (counts css)) dim); [|discriminate].
    destruct (Z.ltb (Z.of_nat deg) (nc_max (counts css))); [discriminate|]. injection EM' as <-. reflexivity. }
  unfold admissible. replace (S deg - 1)%nat with deg by lia.
  assert (Hns : forall m, ~ singleton (EInt m)) by (intros m [a Ha']; discriminate).
  split; intros (Hl & Hd & H); split; try assumption; split; try assumption.
  - destruct H as [H|(k & row & a & Er & Ev & Hni)]; [discriminate|]. rewrite EM2 in Er. unfold counts in Er. rewrite !nth_error_map in Er.
    destruct (nth_error css k) as [cs|] eqn:Ec; [|discriminate]. injection Er as <-. fold (counts css) in Hni.
    exists k, cs. split; [exact Ec|]. rewrite (nth_error_nth _ _ _ Ev). rewrite ent_row_names in Hni by apply Hns. cbn in Hni. lia.
  - right. destruct H as (k & cs & Ec & Hle). assert (k < dim)%nat as Hkd by (rewrite <- (proj1 Hcs); apply nth_error_Some; congruence).
    exists k, (ent_row (Z.to_nat (nc_max (counts css))) (EInt (Z.of_nat (length cs)))), (nth k v 0%nat).
    split; [rewrite EM2; unfold counts; rewrite !nth_error_map, Ec; reflexivity|]. split; [apply nth_error_nth'; lia|].
    rewrite ent_row_names by apply Hns. cbn. lia.
Qed.
Variable jvpn : (list R -> R) -> list R -> list R -> R.
Hypothesis Hj : jvpn_ok jvpn.
Lemma o_cols : columns_are (fun x d => mtfc_H ROps RFun jvpn u (md x) d false) be f x0 xf (S deg) dim (K false).
Proof.
  pose proof (o_args f nC deg dim x0 xf w b css Hdim HnC) as Hsh. pose proof Hu as Hi.
  apply mkm_inv in Hi as (_ & _ & H0 & Hf' & B & z0 & zf & z & x' & Es & _ & _).
  destruct (msetup_ok be (MB f) nC deg dim x0 xf w b B z0 zf Hsh H0 Hf' Es) as [HB _]. cbn in HB. destruct HB as (M & EM & Hargs & _).
  intros N x d Hxs Hd.
  pose proof (ProofMtfc.mH jvpn Hj be (MB f) n nC deg dim x0 xf w b _ Hu Hsh d false N x (conj Hd I) Hxs) as EH.
  cbn zeta in EH. eexists. split; [exact EH|]. split; [apply mmat_shaped|]. intros i v j Hi Hjn.
  exists (fun k => ndcol f x0 xf k (xat x j k) (nth k d 0%nat) (nth k v 0%nat)). split.
  - intros k Hk. destruct (shaped_ent x dim N k j 0 Hxs Hk Hjn) as (row & Er & _ & Hent').
    eexists. split; [unfold ment; rewrite Er; exact Hent'|].
    assert (Exat : xat x j k = nth j (nth k (md x) []) 0) by reflexivity.
    rewrite Exat. rewrite (nth_error_nth _ _ [] Er). apply ndcol_entry; [apply Hargs|].
    apply (vecs_nth (S deg) dim); [exact Hk|]. apply (proj2 (g_K f nC deg dim false)), (nth_error_In _ _ Hi).
  - rewrite mmat_ent by exact Hjn. match goal with |- option_map _ ?t = _ => change t with (nth_error (K false) i) end. rewrite Hi. reflexivity.
Qed.
End Obj.
