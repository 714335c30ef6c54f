(** The multivariate basis at the points of the grid. *)
From Coq Require Import Reals Arith Lia Lra List Bool ZArith Permutation.
From Coquelicot Require Import Coquelicot.
From Verif Require Import Base ProofBase Numbers ModelBFPy ModelBFCpp ProofTab ProofBFPy ProofBFCpp SpecBasis
  ProofH ModelELM SpecELM ProofELM ModelND SpecND ProofND ProofND2 ModelNELM SpecNELM ProofNELM ProofNELM2
  ModelUtfc SpecUtfc ProofUtfc ModelMtfc SpecMtfc ProofMtfc ProofMtfc2 ProofMtfc3 ProofIndep SpecColl ProofColl PropColl SpecNColl.
Import ListNotations.
Open Scope R_scope.

(** ** sums over lists of multi-indices *)
Definition vec := list nat.
Fixpoint sumL (h : vec -> R) (l : list vec) : R := match l with [] => 0 | v :: l => h v + sumL h l end.
Lemma sumL_app h l l' : sumL h (l ++ l') = sumL h l + sumL h l'.
Proof. induction l as [|v l IH]; cbn; [ring|]. rewrite IH. ring. Qed.
Lemma sumL_map (g : vec -> vec) h l : sumL h (map g l) = sumL (fun v => h (g v)) l.
Proof. induction l as [|v l IH]; cbn; [reflexivity|]. rewrite IH. reflexivity. Qed.
Lemma sumL_ext h h' l : (forall v, In v l -> h v = h' v) -> sumL h l = sumL h' l.
Proof.
  induction l as [|v l IH]; intros H; cbn; [reflexivity|]. rewrite H by (left; reflexivity).
  rewrite IH by (intros; apply H; right; assumption). reflexivity.
Qed.
Lemma sumL_scale c h l : sumL (fun v => c * h v) l = c * sumL h l.
Proof. induction l as [|v l IH]; cbn; [ring|]. rewrite IH. ring. Qed.
Lemma sumL_plus h h' l : sumL (fun v => h v + h' v) l = sumL h l + sumL h' l.
Proof. induction l as [|v l IH]; cbn; [ring|]. rewrite IH. ring. Qed.
Lemma sumL_zero l : sumL (fun _ => 0) l = 0.
Proof. induction l as [|v l IH]; cbn; [reflexivity|]. rewrite IH. ring. Qed.

Lemma comb_const g q : comb (fun _ => 1) g (S q) = comb (fun _ => 1) g q + g q.
Proof. cbn [comb]. ring. Qed.
Lemma sumL_vecs h m k : sumL h (vecs m (S k)) = comb (fun x => sumL (fun v => h (v ++ [x])) (vecs m k)) (fun _ => 1) m.
Proof.
  cbn [vecs]. assert (G : forall s q, sumL h (flat_map (fun x => map (fun v => v ++ [x]) (vecs m k)) (seq s q)) =
    comb (fun x => sumL (fun v => h (v ++ [(s + x)%nat])) (vecs m k)) (fun _ => 1) q).
  { intros s q. induction q as [|q IH]; [reflexivity|]. rewrite seq_S, flat_map_app, sumL_app, IH. cbn [flat_map comb].
    rewrite app_nil_r, sumL_map. ring. }
  rewrite (G 0%nat m). reflexivity.
Qed.
Lemma nth_snoc (v : vec) x k : nth k (v ++ [x]) 0%nat = if (k =? length v)%nat then x else nth k v 0%nat.
Proof.
  destruct (Nat.eqb_spec k (length v)) as [->|N]; [apply nth_middle|].
  destruct (Nat.lt_ge_cases k (length v)) as [H|H]; [apply app_nth1, H|].
  rewrite app_nth2 by exact H. rewrite (nth_overflow v) by exact H. apply nth_overflow. cbn. lia.
Qed.

(** ** functions independent in every variable have independent products *)
Definition free_on (m : nat) (g : nat -> R -> R) (xs : list R) : Prop :=
  forall a, (forall x, In x xs -> comb a (fun i => g i x) m = 0) -> forall i, (i < m)%nat -> a i = 0.
Lemma comb_swap (a g : nat -> R) q : comb a g q = comb g a q.
Proof. induction q as [|q IH]; cbn [comb]; [reflexivity|]. rewrite IH. ring. Qed.
Lemma tensor_free (P : nat -> nat -> R -> R) m (ax : nat -> list R) dim :
  (forall k, (k < dim)%nat -> free_on m (P k) (ax k)) -> forall c : vec -> R,
  (forall X : nat -> R, (forall k, (k < dim)%nat -> In (X k) (ax k)) ->
     sumL (fun v => c v * prodn dim (fun k => P k (nth k v 0%nat) (X k))) (vecs m dim) = 0) ->
  forall v, In v (vecs m dim) -> c v = 0.
Proof.
  induction dim as [|dim IH]; intros Hfree c Hc v Hv.
  - destruct Hv as [<-|[]]. specialize (Hc (fun _ => 0)). cbn in Hc. rewrite <- Hc; [ring|]. intros k Hk; lia.
  - cbn [vecs] in Hv. apply in_flat_map in Hv as (x & Hx & Hv). apply in_map_iff in Hv as (v' & <- & Hv'). apply in_seq in Hx.
    apply (IH (fun k Hk => Hfree k (Nat.lt_lt_succ_r _ _ Hk)) (fun v' => c (v' ++ [x]))); [|exact Hv'].
    intros X HX.
    apply (Hfree dim (Nat.lt_succ_diag_r dim)
      (fun x => sumL (fun v => c (v ++ [x]) * prodn dim (fun k => P k (nth k v 0%nat) (X k))) (vecs m dim))); [|lia].
    intros t Ht. rewrite <- (Hc (upd X dim t)).
    + rewrite sumL_vecs.
      assert (E : forall q, comb (fun x => sumL (fun v => c (v ++ [x]) * prodn dim (fun k => P k (nth k v 0%nat) (X k))) (vecs m dim)) (fun i => P dim i t) q =
        comb (fun x => sumL (fun v => c (v ++ [x]) * prodn (S dim) (fun k => P k (nth k (v ++ [x]) 0%nat) (upd X dim t k))) (vecs m dim)) (fun _ => 1) q).
      { induction q as [|q IHq]; [reflexivity|]. cbn [comb]. rewrite IHq. f_equal. rewrite Rmult_1_r, Rmult_comm, <- sumL_scale.
        apply sumL_ext. intros w Hw. apply vecs_len in Hw. cbn [prodn].
        rewrite nth_snoc, Hw, Nat.eqb_refl. unfold upd at 2. rewrite Nat.eqb_refl.
        rewrite (prodn_ext dim (fun k => P k (nth k (w ++ [q]) 0%nat) (upd X dim t k)) (fun k => P k (nth k w 0%nat) (X k))).
        - ring.
        - intros k Hk. rewrite nth_snoc, Hw. unfold upd. destruct (Nat.eqb_spec k dim); [lia|reflexivity]. }
      apply E.
    + intros k Hk. unfold upd. destruct (Nat.eqb_spec k dim) as [->|N]; [exact Ht|]. apply HX. lia.
Qed.

(** ** rows of a matrix as sums over multi-indices *)
Fixpoint cfL (ks : list vec) (a : nat -> R) (v : vec) : R :=
  match ks with [] => 0 | k :: ks => (if list_eq_dec Nat.eq_dec k v then a 0%nat else 0) + cfL ks (fun i => a (S i)) v end.
Lemma sumL_delta w (k : vec) h l : NoDup l -> In k l -> sumL (fun v => (if list_eq_dec Nat.eq_dec k v then w else 0) * h v) l = w * h k.
Proof.
  induction l as [|v l IH]; intros Hnd Hk; [destruct Hk|]. apply NoDup_cons_iff in Hnd as [Hni Hnd]. cbn [sumL].
  destruct (list_eq_dec Nat.eq_dec k v) as [->|N].
  - rewrite (sumL_ext _ (fun _ => 0)), sumL_zero; [ring|]. intros u Hu. destruct (list_eq_dec Nat.eq_dec v u) as [->|_]; [contradiction|ring].
  - destruct Hk as [Hk|Hk]; [congruence|]. rewrite IH by assumption. ring.
Qed.
Lemma row_comb_cfL ks : forall a h l, NoDup l -> incl ks l -> row_comb a (map h ks) = sumL (fun v => cfL ks a v * h v) l.
Proof.
  induction ks as [|k ks IH]; intros a h l Hnd Hin; cbn [map row_comb cfL].
  - rewrite (sumL_ext _ (fun _ => 0)), sumL_zero; [reflexivity|]. intros; ring.
  - rewrite (IH _ h l Hnd) by (intros v Hv; apply Hin; right; exact Hv).
    rewrite <- (sumL_delta (a 0%nat) k h l Hnd) by (apply Hin; left; reflexivity).
    rewrite <- sumL_plus. apply sumL_ext. intros v _. ring.
Qed.
Lemma cfL_out ks : forall a v, ~ In v ks -> cfL ks a v = 0.
Proof.
  induction ks as [|k ks IH]; intros a v H; cbn [cfL]; [reflexivity|].
  destruct (list_eq_dec Nat.eq_dec k v) as [->|_]; [exfalso; apply H; left; reflexivity|].
  rewrite IH by (intros K; apply H; right; exact K). ring.
Qed.
Lemma cfL_at ks : forall a i v, NoDup ks -> nth_error ks i = Some v -> cfL ks a v = a i.
Proof.
  induction ks as [|k ks IH]; intros a i v Hnd Hi; [destruct i; discriminate|]. apply NoDup_cons_iff in Hnd as [Hni Hnd].
  destruct i as [|i]; cbn [nth_error] in Hi; cbn [cfL].
  - injection Hi as ->. destruct (list_eq_dec Nat.eq_dec v v); [|contradiction]. rewrite cfL_out by exact Hni. ring.
  - destruct (list_eq_dec Nat.eq_dec k v) as [->|_]; [exfalso; apply Hni, (nth_error_In _ _ Hi)|]. rewrite (IH _ i) by assumption. ring.
Qed.
Lemma row_comb_nth K : forall (h g : vec -> R) (a : nat -> R), (forall i v, nth_error K i = Some v -> a i = h v) ->
  row_comb a (map g K) = sumL (fun v => h v * g v) K.
Proof.
  induction K as [|k K IH]; intros h g a H; cbn; [reflexivity|].
  rewrite (H 0%nat k eq_refl). rewrite (IH h); [reflexivity|]. intros i v Hi. apply (H (S i)). exact Hi.
Qed.
Lemma sumL_remove h (k : vec) l : NoDup l -> In k l -> sumL h l = h k + sumL h (remove (list_eq_dec Nat.eq_dec) k l).
Proof.
  induction l as [|v l IH]; intros Hnd Hk; [destruct Hk|]. apply NoDup_cons_iff in Hnd as [Hni Hnd]. cbn [remove sumL].
  destruct (list_eq_dec Nat.eq_dec k v) as [->|N].
  - rewrite notin_remove by exact Hni. reflexivity.
  - destruct Hk as [Hk|Hk]; [congruence|]. rewrite IH by assumption. cbn [sumL]. ring.
Qed.
Lemma nodup_remove (k : vec) l : NoDup l -> NoDup (remove (list_eq_dec Nat.eq_dec) k l).
Proof.
  induction l as [|v l IH]; intros H; cbn; [constructor|]. apply NoDup_cons_iff in H as [Hni H].
  destruct (list_eq_dec Nat.eq_dec k v); [apply IH, H|]. constructor; [|apply IH, H]. intros K. apply in_remove in K. tauto.
Qed.
Lemma sumL_support h L : forall K, NoDup K -> NoDup L -> incl L K -> (forall v, In v K -> ~ In v L -> h v = 0) -> sumL h K = sumL h L.
Proof.
  induction L as [|k L IH]; intros K HK HL Hin H0.
  - cbn. rewrite (sumL_ext _ (fun _ => 0)), sumL_zero; [reflexivity|]. intros v Hv. apply H0; [exact Hv|intros []].
  - apply NoDup_cons_iff in HL as [Hni HL]. rewrite (sumL_remove h k K HK) by (apply Hin; left; reflexivity). cbn [sumL]. f_equal.
    apply IH; [apply nodup_remove, HK|exact HL| |].
    + intros v Hv. apply in_in_remove; [intros ->; contradiction|apply Hin; right; exact Hv].
    + intros v Hv Hn. apply in_remove in Hv as [Hv Hne]. apply H0; [exact Hv|]. intros [E|E]; [congruence|contradiction].
Qed.

(** the multi-index [j] in variable [k], zero elsewhere *)
Definition ilin (dim k j : nat) : vec := map (fun i => if (i =? k)%nat then j else 0%nat) (seq 0 dim).
Lemma line_nth dim k j i : (i < dim)%nat -> nth i (ilin dim k j) 0%nat = if (i =? k)%nat then j else 0%nat.
Proof.
  intros Hi. apply nth_error_nth. unfold ilin. rewrite nth_error_map_seq. destruct (Nat.ltb_spec i dim); [reflexivity|lia].
Qed.
Lemma line_len dim k j : length (ilin dim k j) = dim.
Proof. unfold ilin. rewrite map_length. apply seq_length. Qed.
Lemma line_sum dim k j : (k < dim)%nat -> list_sum (ilin dim k j) = j.
Proof.
  intros Hk. unfold ilin.
  assert (G : forall q s, list_sum (map (fun i => if (i =? k)%nat then j else 0%nat) (seq s q)) = if ((s <=? k) && (k <? s + q))%nat then j else 0%nat).
  { induction q as [|q IH]; intros s; cbn [seq map list_sum fold_right].
    - destruct (Nat.leb_spec s k), (Nat.ltb_spec k (s + 0)); cbn; try reflexivity; lia.
    - change (fold_right Nat.add 0%nat ?l) with (list_sum l). rewrite IH.
      destruct (Nat.eqb_spec s k), (Nat.leb_spec (S s) k), (Nat.ltb_spec k (S s + q)), (Nat.leb_spec s k), (Nat.ltb_spec k (s + S q)); cbn; lia. }
  rewrite G. destruct (Nat.leb_spec 0 k), (Nat.ltb_spec k (0 + dim)); cbn; lia.
Qed.
Lemma line_inj dim k i j : (k < dim)%nat -> ilin dim k i = ilin dim k j -> i = j.
Proof. intros Hk E. pose proof (f_equal (fun v => nth k v 0%nat) E) as H. cbn beta in H. rewrite !line_nth, Nat.eqb_refl in H by exact Hk. exact H. Qed.

(** ** one variable: C73 *)
Lemma axis_free f x0 xf N deg : offeredm (MB f) -> (2 <= N)%nat -> x0 < xf ->
  free_on (S deg) (fun i x => col f i 0 (SpecBasis.zmap f x0 xf x)) (map (point_rule (UB f) x0 xf (N - 1)) (seq 0 N)) <-> enough f deg N.
Proof.
  intros Ho HN Hx. assert (Hne : x0 <> xf) by lra.
  destruct (mk_some Py (UB f) N (NcInt 0) [] deg x0 xf [] [] eq_refl ltac:(cbn; lia) ltac:(intros i []) Ho HN) as (u & Hu).
  destruct (uH_family cjvp cjvp_ok Py f N (NcInt 0) deg x0 xf [] [] u [] 0 true (u_x u) Hu Hne eq_refl ltac:(discriminate))
    as (M & EM & EmC & Emd & Em & _).
  unfold uks in *. rewrite Em, seq_length in EmC. rewrite Em in Emd.
  assert (Hiff : independent_columns M <-> enough f deg N).
  { cbn in Ho. destruct Ho as [->|[->| ->]].
    - destruct (C73_polynomial_iff cjvp Py CP N (NcInt 0) deg x0 xf [] [] u cjvp_ok ltac:(discriminate) HN Hx Hu) as (M' & E' & H).
      assert (M' = M) by congruence. subst M'. exact H.
    - destruct (C73_polynomial_iff cjvp Py LeP N (NcInt 0) deg x0 xf [] [] u cjvp_ok ltac:(discriminate) HN Hx Hu) as (M' & E' & H).
      assert (M' = M) by congruence. subst M'. exact H.
    - destruct (C73_fourier_iff cjvp Py N (NcInt 0) deg x0 xf [] [] u cjvp_ok HN Hx Hu) as (M' & E' & H).
      assert (M' = M) by congruence. subst M'. exact H. }
  rewrite <- Hiff. rewrite <- (c18_points _ _ _ _ _ _ _ _ _ _ HN Hne Hu). unfold free_on, independent_columns. rewrite EmC, Emd.
  assert (Hrow : forall a x, row_comb a (map (fun k => col f k 0 (SpecBasis.zmap f x0 xf x) * b_c (u_B u) ^ 0) (seq 0 (S deg))) =
     comb a (fun i => col f i 0 (SpecBasis.zmap f x0 xf x)) (S deg)).
  { intros a x. rewrite row_comb_seq. apply comb_ext. intros i _. cbn [Nat.add pow]. ring. }
  split; intros H a Ha.
  - apply H. intros x Hxin. rewrite <- Hrow. apply Ha. apply (in_map (fun x => map _ _) (u_x u) x Hxin).
  - apply H. intros row Hr. apply in_map_iff in Hr as (x & <- & Hxin). rewrite Hrow. apply Ha, Hxin.
Qed.

(** ** the grid *)
Section Grid.
Variable jvpn : (list R -> R) -> list R -> list R -> R.
Hypothesis Hj : jvpn_ok jvpn.
Variables (be : backend) (f : fam) (n : list nat) (nC : mnc_arg) (deg dim : nat) (x0 xf w b : list R) (u : mtfc (T:=R)).
Hypothesis Hu : mkm be (MB f) n nC deg dim x0 xf w b = Some u.
Hypothesis Ha : argsm (MB f) nC deg dim x0 xf w b.
Hypothesis Hx : forall k, (k < dim)%nat -> nth k x0 0 < nth k xf 0.
Hypothesis Hn : forall k, (k < dim)%nat -> (2 <= nth k n 0)%nat.
Let P (k i : nat) (x : R) : R := col f i 0 (SpecBasis.zmap f (nth k x0 0) (nth k xf 0) x).
Let ax (k : nat) : list R := map (point_rule (UB f) (nth k x0 0) (nth k xf 0) (nth k n 0%nat - 1)) (seq 0 (nth k n 0%nat)).
Let K full := mK (MB f) dim deg nC full.
Let G (X : pt) (v : vec) : R := prodn dim (fun k => P k (nth k v 0%nat) (X k)).

Lemma g_offered : offeredm (MB f).
Proof.
  pose proof Hu as Hi. apply mkm_inv in Hi as (_ & _ & H0 & Hf & B & z0 & zf & z & x & Es & _ & ->).
  destruct (msetup_ok be (MB f) nC deg dim x0 xf w b B z0 zf Ha H0 Hf Es) as [HB _].
  cbn in HB. destruct HB as (M & _ & Hargs & _). apply Hargs.
Qed.
Lemma g_term X v : ndterm f x0 xf dim X (repeat 0%nat dim) v = G X v.
Proof.
  unfold ndterm, G. apply prodn_ext. intros k Hk. unfold ndcol, P. specialize (Hx k Hk).
  replace (nth k (repeat 0%nat dim) 0%nat) with 0%nat.
  2:{ clear. generalize k. induction dim as [|q IH]; intros [|j]; cbn; auto. }
  cbn [pow]. rewrite Rmult_1_r. f_equal. unfold nd_ci, nd_z0, nd_zf.
  pose proof g_offered as [-> |[-> | ->]]; cbn; field; lra.
Qed.
Lemma g_K full : NoDup (K full) /\ incl (K full) (vecs (S deg) dim).
Proof.
  unfold K, mK. destruct (mtfc_prod_nC dim deg nC) as [M|]; [|split; [constructor|intros v []]].
  split; [apply idxs_nodup|]. intros v Hv. unfold idxs in Hv. apply filter_In in Hv. apply Hv.
Qed.
Lemma g_Kfull v : In v (K true) <-> length v = dim /\ (list_sum v <= deg)%nat.
Proof.
  pose proof Hu as Hi. apply mkm_inv in Hi as (_ & _ & H0 & Hf & B & z0 & zf & z & x & Es & _ & ->).
  destruct (msetup_ok be (MB f) nC deg dim x0 xf w b B z0 zf Ha H0 Hf Es) as [HB _].
  cbn in HB. destruct HB as (M & EM & Hargs & _). unfold K, mK. rewrite EM, idxs_in by (try lia; apply Hargs).
  unfold admissible. replace (S deg - 1)%nat with deg by lia. intuition.
Qed.
(** rows of the matrix at the grid: one for every choice of a point on every axis *)
Lemma g_rows full : exists M, mtfc_H ROps RFun jvpn u (m_x u) (repeat 0%nat dim) full = Some M /\ mc M = length (K full) /\
  forall row, In row (md M) <-> exists X, (forall k, (k < dim)%nat -> In (X k) (ax k)) /\ row = map (G X) (K full).
Proof.
  destruct (c19 be (MB f) n nC deg dim x0 xf w b u Hu) as (HN & HL & Hrow). { intros k Hk. specialize (Hx k Hk). lra. }
  set (x := Mat dim (product n) (m_x u)).
  assert (Hsh : shaped x dim (product n)).
  { repeat split; cbn [mr mc md x]; [exact HL|]. intros r Hr. apply In_nth_error in Hr as (k & Hk).
    assert (k < dim)%nat by (rewrite <- HL; apply nth_error_Some; congruence).
    destruct (Hrow k H) as (row & Er & El & _). congruence. }
  destruct (mtfc_H_ok jvpn be (MB f) n nC deg dim x0 xf w b u (repeat 0%nat dim) full (product n) x Hj Hu Ha) as (EH & _).
  { split; [apply repeat_length|exact I]. } { exact Hsh. }
  eexists. split; [exact EH|]. split; [reflexivity|]. intros row. cbn [mmat md].
  assert (Eterm : forall j, map (fun v => mcolf (MB f) dim deg x0 xf w b (repeat 0%nat dim) v (xat x j)) (mK (MB f) dim deg nC full) = map (G (xat x j)) (K full)).
  { intros j. apply map_ext. intros v. cbn [mcolf]. apply g_term. }
  assert (HnL : length n = dim) by (apply mkm_inv in Hu; apply Hu).
  assert (Erule : forall a c q, point_rulem (MB f) a c q = point_rule (UB f) a c q) by (intros; destruct f; reflexivity).
  assert (Hat : forall j k, (j < product n)%nat -> (k < dim)%nat ->
    xat x j k = point_rule (UB f) (nth k x0 0) (nth k xf 0) (nth k n 0%nat - 1) ((j / stride n k) mod nth k n 0%nat)).
  { intros j k Hjn Hk. unfold xat. cbn [md x]. destruct (Hrow k Hk) as (r & Er & _ & He). rewrite (nth_error_nth _ _ _ Er).
    apply nth_error_nth. rewrite He by exact Hjn. rewrite Erule. reflexivity. }
  rewrite in_map_iff. split.
  - intros (j & <- & Hjn). apply in_seq in Hjn. exists (xat x j). split; [|apply Eterm].
    intros k Hk. rewrite Hat by (try assumption; lia). unfold ax. apply (in_map (point_rule _ _ _ _)). apply in_seq. specialize (Hn k Hk).
    pose proof (Nat.mod_upper_bound (j / stride n k) (nth k n 0%nat)). lia.
  - intros (X & HX & ->).
    assert (Hex : forall q, (q <= dim)%nat -> exists a : nat -> nat, forall k, (k < q)%nat -> (a k < nth k n 0)%nat /\
       X k = point_rule (UB f) (nth k x0 0) (nth k xf 0) (nth k n 0%nat - 1) (a k)).
    { induction q as [|q IH]; intros Hq; [exists (fun _ => 0%nat); intros; lia|]. destruct (IH ltac:(lia)) as (a & Hap).
      destruct (proj1 (in_map_iff _ _ _) (HX q ltac:(lia))) as (i & Ei & Hi). apply in_seq in Hi.
      exists (fun k => if (k =? q)%nat then i else a k). intros k Hk. destruct (Nat.eqb_spec k q) as [->|N].
      - split; [lia|]. symmetry. exact Ei.
      - apply Hap. lia. }
    destruct (Hex dim (le_n _)) as (a & Hap).
    destruct (digits_exist n a) as (i & Hi & Hd).
    { intros k c Hk. assert (k < dim)%nat by (rewrite <- HnL; apply nth_error_Some; congruence).
      rewrite <- (nth_error_nth n k 0%nat Hk). apply Hap. assumption. }
    exists i. split; [|apply in_seq; lia]. rewrite Eterm. apply map_ext. intros v. unfold G. apply prodn_ext. intros k Hk.
    f_equal. rewrite Hat by assumption. destruct (Hap k Hk) as [_ ->]. rewrite (Hd k (nth k n 0%nat)) by (apply nth_error_nth'; lia). reflexivity.
Qed.
Lemma g_free : (forall k, (k < dim)%nat -> enough f deg (nth k n 0%nat)) <-> forall k, (k < dim)%nat -> free_on (S deg) (P k) (ax k).
Proof.
  pose proof g_offered as Ho. split; intros H k Hk; apply (axis_free f (nth k x0 0) (nth k xf 0) (nth k n 0%nat) deg Ho (Hn k Hk) (Hx k Hk)); apply H, Hk.
Qed.
Lemma g_P0 k x : P k 0 x = 1.
Proof. unfold P. pose proof g_offered as [-> |[-> | ->]]; reflexivity. Qed.
Lemma g_axis_pt k : (k < dim)%nat -> exists x, In x (ax k).
Proof.
  intros Hk. specialize (Hn k Hk). eexists. unfold ax. apply (in_map (point_rule _ _ _ _)). apply in_seq. instantiate (1 := 0%nat). lia.
Qed.

Lemma grid_independent full : (forall k, (k < dim)%nat -> enough f deg (nth k n 0%nat)) ->
  exists M, mtfc_H ROps RFun jvpn u (m_x u) (repeat 0%nat dim) full = Some M /\ independent_columns M.
Proof.
  intros He. destruct (g_rows full) as (M & EM & EmC & Hrows). exists M. split; [exact EM|].
  intros a Hz i Hi. rewrite EmC in Hi. destruct (nth_error (K full) i) as [v|] eqn:Ev; [|apply nth_error_None in Ev; lia].
  destruct (g_K full) as [HKn HKi].
  rewrite <- (cfL_at (K full) a i v HKn Ev).
  apply (tensor_free P (S deg) ax dim (proj1 g_free He)); [|apply HKi, (nth_error_In _ _ Ev)].
  intros X HX. rewrite <- (Hz (map (G X) (K full))); [|apply Hrows; exists X; split; [exact HX|reflexivity]].
  symmetry. apply (row_comb_cfL (K full) a (G X)); [apply vecs_nodup|exact HKi].
Qed.
Lemma grid_necessary M : mtfc_H ROps RFun jvpn u (m_x u) (repeat 0%nat dim) true = Some M -> independent_columns M ->
  forall k, (k < dim)%nat -> enough f deg (nth k n 0%nat).
Proof.
  intros EM HI. apply g_free. intros k Hk c Hc j Hjd.
  destruct (g_rows true) as (M' & EM' & EmC & Hrows). assert (M' = M) by congruence. subst M'.
  pose (h := fun v : vec => if list_eq_dec Nat.eq_dec v (ilin dim k (nth k v 0%nat)) then c (nth k v 0%nat) else 0).
  pose (a := fun i => h (nth i (K true) [])).
  destruct (g_K true) as [HKn HKi].
  assert (Hin : forall i, (i < S deg)%nat -> In (ilin dim k i) (K true)).
  { intros i Hi. apply g_Kfull. rewrite line_len, line_sum by exact Hk. lia. }
  assert (Ha0 : forall i, (i < length (K true))%nat -> a i = 0).
  { rewrite <- EmC. apply HI. intros row Hr. apply Hrows in Hr as (X & HX & ->).
    rewrite (row_comb_nth (K true) h (G X) a) by (intros i v Hi; unfold a; rewrite (nth_error_nth _ _ _ Hi); reflexivity).
    rewrite (sumL_support _ (map (ilin dim k) (seq 0 (S deg))) (K true)).
    - rewrite <- (Hc (X k) (HX k Hk)). generalize (S deg). intros q.
      induction q as [|q IH]; [reflexivity|]. rewrite seq_S, map_app, sumL_app, IH. cbn [map sumL comb Nat.add]. f_equal. rewrite Rplus_0_r.
      unfold h. rewrite line_nth, Nat.eqb_refl by exact Hk. destruct (list_eq_dec Nat.eq_dec (ilin dim k q) (ilin dim k q)); [|contradiction].
      f_equal. unfold G. rewrite (prodn_one dim _ k Hk), line_nth, Nat.eqb_refl by exact Hk.
      rewrite (prodn_ext dim _ (fun _ => 1)).
      + assert (E1 : forall q, prodn q (fun _ => 1) = 1) by (induction q0 as [|q0 IH0]; cbn; [reflexivity|rewrite IH0; ring]). rewrite E1. ring.
      + intros i Hi. destruct (Nat.eqb_spec i k) as [->|N]; [reflexivity|]. rewrite line_nth by exact Hi.
        destruct (Nat.eqb_spec i k); [contradiction|]. apply g_P0.
    - exact HKn.
    - apply FinFun.Injective_map_NoDup; [intros p q; apply line_inj, Hk|apply seq_NoDup].
    - intros v Hv. apply in_map_iff in Hv as (i & <- & Hi). apply in_seq in Hi. apply Hin. lia.
    - intros v Hv Hno. unfold h. destruct (list_eq_dec Nat.eq_dec v (ilin dim k (nth k v 0%nat))) as [E|]; [|ring]. exfalso. apply Hno.
      rewrite E. apply in_map. apply in_seq. apply HKi in Hv. pose proof (vecs_nth (S deg) dim v k Hk Hv). lia. }
  destruct (In_nth_error _ _ (Hin j Hjd)) as (i & Ei).
  assert (Hil : (i < length (K true))%nat) by (apply (proj1 (nth_error_Some (K true) i)); intros E0; pose proof (eq_trans (eq_sym E0) Ei); discriminate).
  specialize (Ha0 i Hil). unfold a in Ha0. rewrite (nth_error_nth _ _ _ Ei) in Ha0. unfold h in Ha0.
  rewrite line_nth, Nat.eqb_refl in Ha0 by exact Hk. destruct (list_eq_dec Nat.eq_dec (ilin dim k j) (ilin dim k j)); [exact Ha0|contradiction].
Qed.
End Grid.

(** ** combinations of columns and their mixed partial derivatives *)
Section Mix.
Variables (f : fam) (x0 xf : list R) (dim : nat).
Definition oterm' (v : vec) (o : nat -> nat) (X : pt) : R := oterm (fun k d t => ndcol f x0 xf k t d (nth k v 0%nat)) dim o X.
Lemma otermc_step ks a o k X d : (k < dim)%nat -> o k = 0%nat ->
  is_derive_n (fun t => row_comb a (map (fun v => oterm' v o (upd X k t)) ks)) d (X k)
    (row_comb a (map (fun v => oterm' v (fun i => if (i =? k)%nat then d else o i) X) ks)).
Proof.
  intros Hk Ho.
  pose (c := fun v : vec => prodn dim (fun i => if (i =? k)%nat then 1 else ndcol f x0 xf i (X i) (o i) (nth i v 0%nat))).
  pose (F := fun e t => row_comb a (map (fun v => c v * ndcol f x0 xf k t e (nth k v 0%nat)) ks)).
  apply (is_derive_n_ext (F 0%nat)).
  { intros t. unfold F. f_equal. apply map_ext. intros v. unfold oterm', oterm. rewrite (prodn_one dim _ k Hk).
    unfold upd at 1. rewrite Nat.eqb_refl, Ho, Rmult_comm. f_equal. apply prodn_ext. intros i Hi. unfold upd. destruct (Nat.eqb_spec i k); reflexivity. }
  replace (row_comb a (map (fun v => oterm' v (fun i => if (i =? k)%nat then d else o i) X) ks)) with (F d (X k)).
  2:{ unfold F. f_equal. apply map_ext. intros v. unfold oterm', oterm. rewrite (prodn_one dim _ k Hk), Nat.eqb_refl, Rmult_comm. f_equal.
      apply prodn_ext. intros i Hi. destruct (Nat.eqb_spec i k); reflexivity. }
  apply (is_derive_n_chain F). clear d. intros e t. unfold F. clear F. revert a.
  induction ks as [|v ks IH]; intros a; cbn [map row_comb].
  - apply is_derive_Reals, derivable_pt_lim_const.
  - apply (is_derive_plus (fun t => a 0%nat * (c v * ndcol f x0 xf k t e (nth k v 0%nat)))
      (fun t => row_comb (fun i => a (S i)) (map (fun v => c v * ndcol f x0 xf k t e (nth k v 0%nat)) ks))); [|apply IH].
    apply (is_derive_scal (fun t => c v * ndcol f x0 xf k t e (nth k v 0%nat)) t (a 0%nat)).
    apply (is_derive_scal (fun t => ndcol f x0 xf k t e (nth k v 0%nat)) t (c v)). apply ndcol_derive.
Qed.
Lemma otermc_mixed ks a d : forall js o, NoDup js -> (forall k, In k js -> (k < dim)%nat /\ o k = 0%nat) ->
  mixed d js (fun X => row_comb a (map (fun v => oterm' v o X) ks))
    (fun X => row_comb a (map (fun v => oterm' v (fun i => if existsb (Nat.eqb i) js then nth i d 0%nat else o i) X) ks)).
Proof.
  induction js as [|k js IH]; intros o Hn Ho; cbn [mixed existsb].
  - intros X. reflexivity.
  - inversion Hn as [|? ? Hk Hn']; subst. destruct (Ho k (or_introl eq_refl)) as [Hkd Hk0].
    exists (fun X => row_comb a (map (fun v => oterm' v (fun i => if (i =? k)%nat then nth k d 0%nat else o i) X) ks)). split.
    + intros X. apply otermc_step; [exact Hkd|exact Hk0].
    + specialize (IH (fun i => if (i =? k)%nat then nth k d 0%nat else o i) Hn').
      refine (mixed_ext _ _ _ _ _ _ _ _ (IH _)).
      * intros X. reflexivity.
      * intros X. f_equal. apply map_ext. intros v. unfold oterm', oterm. apply prodn_ext. intros i Hi. f_equal.
        destruct (Nat.eqb_spec i k) as [->|]; cbn [orb]; [|reflexivity]. destruct (existsb (Nat.eqb k) js); reflexivity.
      * intros i Hi. destruct (Ho i (or_intror Hi)) as [H1 H2]. split; [exact H1|]. destruct (Nat.eqb_spec i k) as [->|]; [contradiction|exact H2].
Qed.
Lemma comb_mixed ks a d js : Permutation js (seq 0 dim) ->
  mixed d js (fun X => row_comb a (map (ndterm f x0 xf dim X (repeat 0%nat dim)) ks)) (fun X => row_comb a (map (ndterm f x0 xf dim X d) ks)).
Proof.
  intros Hp. refine (mixed_ext _ _ _ _ _ _ _ _ (otermc_mixed ks a d js (fun _ => 0%nat) _ _)).
  - intros X. f_equal. apply map_ext. intros v. unfold oterm', oterm, ndterm. apply prodn_ext. intros k Hk. rewrite nth_repeat. reflexivity.
  - intros X. f_equal. apply map_ext. intros v. unfold oterm', oterm, ndterm. apply prodn_ext. intros k Hk.
    rewrite (proj2 (existsb_exists (Nat.eqb k) js)); [reflexivity|]. exists k. split; [|apply Nat.eqb_refl]. apply (seq_perm_in js dim k Hp), Hk.
  - eapply Permutation_NoDup; [apply Permutation_sym, Hp|apply seq_NoDup].
  - intros k Hk. split; [apply (seq_perm_in js dim k Hp), Hk|reflexivity].
Qed.
End Mix.
