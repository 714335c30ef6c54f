(** Polynomials in several variables as combinations of the columns (C90). *)
From Coq Require Import Reals Arith Lia Lra List Bool ZArith Permutation.
From Coquelicot Require Import Coquelicot.
From Verif Require Import Base ProofBase Numbers ModelBFPy ModelBFCpp ProofTab ProofBFPy ProofBFCpp SpecBasis
  ProofH ModelELM SpecELM ProofELM ModelND SpecND ProofND ProofND2 ModelNELM SpecNELM ProofNELM ProofNELM2
  ModelUtfc SpecUtfc ProofUtfc ModelMtfc SpecMtfc ProofMtfc ProofMtfc2 ProofMtfc3 ProofIndep SpecColl ProofColl PropColl SpecNColl ProofNColl.
Import ListNotations.
Open Scope R_scope.

Lemma prodn_mult q g h : prodn q (fun k => g k * h k) = prodn q g * prodn q h.
Proof. induction q as [|q IH]; cbn [prodn]; [ring|]. rewrite IH. ring. Qed.
Lemma prodn_zero q g k : (k < q)%nat -> g k = 0 -> prodn q g = 0.
Proof.
  induction q as [|q IH]; intros Hk H0; [lia|]. cbn [prodn]. destruct (Nat.eq_dec k q) as [->|N]; [rewrite H0; ring|].
  rewrite IH by (try assumption; lia). ring.
Qed.
(** a product of sums is the sum over all multi-indices *)
Lemma prodn_comb m (al g : nat -> nat -> R) dim : prodn dim (fun k => comb (al k) (g k) m) =
  sumL (fun v => prodn dim (fun k => al k (nth k v 0%nat)) * prodn dim (fun k => g k (nth k v 0%nat))) (vecs m dim).
Proof.
  induction dim as [|dim IH]; [cbn; ring|]. cbn [prodn]. rewrite sumL_vecs, IH. 
  set (S0 := sumL _ (vecs m dim)).
  assert (E : forall q, comb (fun x => sumL (fun v => (prodn dim (fun k => al k (nth k (v ++ [x]) 0%nat)) * al dim (nth dim (v ++ [x]) 0%nat)) *
     (prodn dim (fun k => g k (nth k (v ++ [x]) 0%nat)) * g dim (nth dim (v ++ [x]) 0%nat))) (vecs m dim)) (fun _ => 1) q = S0 * comb (al dim) (g dim) q).
  { induction q as [|q IHq]; cbn [comb]; [ring|]. rewrite IHq, Rmult_plus_distr_l. f_equal.
    transitivity ((al dim q * g dim q) * S0); [|ring]. rewrite Rmult_1_r. unfold S0. rewrite <- sumL_scale. apply sumL_ext. intros v Hv.
    apply vecs_len in Hv. rewrite nth_snoc, Hv, Nat.eqb_refl.
    rewrite (prodn_ext dim (fun k => al k (nth k (v ++ [q]) 0%nat)) (fun k => al k (nth k v 0%nat)))
      by (intros k Hk; rewrite nth_snoc, Hv; destruct (Nat.eqb_spec k dim); [lia|reflexivity]).
    rewrite (prodn_ext dim (fun k => g k (nth k (v ++ [q]) 0%nat)) (fun k => g k (nth k v 0%nat)))
      by (intros k Hk; rewrite nth_snoc, Hv; destruct (Nat.eqb_spec k dim); [lia|reflexivity]).
    ring. }
  symmetry. apply E.
Qed.
Lemma row_comb_add r : forall a c, row_comb (fun i => a i + c i) r = row_comb a r + row_comb c r.
Proof. induction r as [|v r IH]; intros a c; cbn [row_comb]; [ring|]. rewrite (IH (fun i => a (S i)) (fun i => c (S i))). ring. Qed.
Lemma row_comb_mul r t : forall a, row_comb (fun i => t * a i) r = t * row_comb a r.
Proof. induction r as [|v r IH]; intros a; cbn [row_comb]; [ring|]. rewrite (IH (fun i => a (S i))). ring. Qed.
Lemma row_comb_0 r : row_comb (fun _ => 0) r = 0.
Proof. induction r as [|v r IH]; cbn [row_comb]; [reflexivity|]. rewrite IH. ring. Qed.

(** powers of one variable, without functions of higher number *)
Lemma power_span f x0 xf e m : offeredm (MB f) -> f <> FS -> x0 < xf -> (e < m)%nat ->
  exists al : nat -> R, (forall i, (e < i)%nat -> al i = 0) /\
    forall x, x ^ e = comb al (fun i => col f i 0 (SpecBasis.zmap f x0 xf x)) m.
Proof.
  intros Ho Hf Hx He.
  assert (Hg : graded (fun i x => ftab f (0 + i) 0 (slope f x0 xf * x + offset f x0 xf)))
    by (apply cols_graded; [exact Hf|apply slope_nz; [exact Hf|lra]]).
  destruct (graded_span _ Hg (S e) (repeat 0 e ++ [1])) as (a & Ha); [rewrite app_length, repeat_length; cbn; lia|].
  exists (fun i => if (i <=? e)%nat then a i else 0). split.
  - intros i Hi. destruct (Nat.leb_spec i e); [lia|reflexivity].
  - intros x. replace (x ^ e) with (peval (repeat 0 e ++ [1]) x).
    2:{ clear. induction e as [|e IH]; cbn [repeat app peval pow]; [ring|]. rewrite IH. ring. }
    rewrite <- Ha. replace m with (S e + (m - S e))%nat by lia. generalize (m - S e)%nat as q.
    induction q as [|q IH].
    + rewrite Nat.add_0_r.
      transitivity (comb a (fun i => col f i 0 (SpecBasis.zmap f x0 xf x)) (S e)).
      * apply comb_ext. intros i _. rewrite zmap_affine by (try lra; assumption). destruct f; try reflexivity; congruence.
      * apply comb_ext_coef. intros i Hi. destruct (Nat.leb_spec i e); [reflexivity|lia].
    + rewrite Nat.add_succ_r. cbn [comb]. destruct (Nat.leb_spec (S e + q) e); [lia|]. rewrite Rmult_0_l, Rplus_0_r. exact IH.
Qed.

Section Span.
Variables (f : fam) (dim deg : nat) (x0 xf : list R) (K : list vec).
Hypothesis Ho : offeredm (MB f).
Hypothesis Hf : f <> FS.
Hypothesis Hx : forall k, (k < dim)%nat -> nth k x0 0 < nth k xf 0.
Hypothesis HK : forall v, In v K <-> length v = dim /\ (list_sum v <= deg)%nat.
Hypothesis HKn : NoDup K.
Hypothesis HKi : incl K (vecs (S deg) dim).
Let P (k i : nat) (x : R) : R := col f i 0 (SpecBasis.zmap f (nth k x0 0) (nth k xf 0) x).
Let G (X : pt) (v : vec) : R := prodn dim (fun k => P k (nth k v 0%nat) (X k)).
Lemma sum_ge (v e : vec) : length v = length e -> (list_sum e < list_sum v)%nat -> exists k, (k < length e)%nat /\ (nth k e 0 < nth k v 0)%nat.
Proof.
  revert e. induction v as [|a v IH]; intros [|c e] Hl Hs; try discriminate; [cbn in Hs; lia|].
  destruct (Nat.lt_ge_cases c a) as [H|H]; [exists 0%nat; cbn; split; [lia|exact H]|].
  destruct (IH e) as (k & Hk & Hlt); [cbn in Hl; lia|cbn in Hs; unfold list_sum in *; lia|]. exists (S k). cbn. split; [lia|exact Hlt].
Qed.
Lemma mono_span e : length e = dim -> (list_sum e <= deg)%nat ->
  exists a, forall X, prodn dim (fun k => X k ^ nth k e 0%nat) = row_comb a (map (G X) K).
Proof.
  intros Hl Hs.
  assert (Hel : forall k, (nth k e 0 <= list_sum e)%nat).
  { intros k. clear. revert k. induction e as [|c e IH]; intros [|k]; cbn; try lia. specialize (IH k). unfold list_sum in IH. lia. }
  assert (Hal : forall q, (q <= dim)%nat -> exists al : nat -> nat -> R, forall k, (k < q)%nat ->
    (forall i, (nth k e 0 < i)%nat -> al k i = 0) /\ forall x, x ^ nth k e 0%nat = comb (al k) (fun i => P k i x) (S deg)).
  { induction q as [|q IH]; intros Hq; [exists (fun _ _ => 0); intros; lia|]. destruct (IH ltac:(lia)) as (al & Hap).
    destruct (power_span f (nth q x0 0) (nth q xf 0) (nth q e 0%nat) (S deg) Ho Hf (Hx q ltac:(lia))) as (c & Hc1 & Hc2); [specialize (Hel q); lia|].
    exists (fun k => if (k =? q)%nat then c else al k). intros k Hk. destruct (Nat.eqb_spec k q) as [->|N]; [split; assumption|]. apply Hap. lia. }
  destruct (Hal dim (le_n _)) as (al & Hap).
  pose (h := fun v : vec => prodn dim (fun k => al k (nth k v 0%nat))).
  exists (fun i => h (nth i K [])). intros X.
  rewrite (row_comb_nth K h (G X)) by (intros i v Hi; rewrite (nth_error_nth _ _ _ Hi); reflexivity).
  rewrite (prodn_ext dim _ (fun k => comb (al k) (fun i => P k i (X k)) (S deg))) by (intros k Hk; apply (Hap k Hk)).
  rewrite (prodn_comb (S deg) al (fun k i => P k i (X k)) dim).
  apply (sumL_support (fun v => h v * G X v) K (vecs (S deg) dim)); [apply vecs_nodup|exact HKn|exact HKi|].
  intros v Hv Hno. pose proof (vecs_len _ _ _ Hv) as Hlv.
  destruct (sum_ge v e) as (k & Hk & Hlt); [congruence| |].
  { destruct (Nat.lt_ge_cases (list_sum e) (list_sum v)) as [H|H]; [exact H|]. exfalso. apply Hno, HK. split; [exact Hlv|lia]. }
  unfold h. rewrite (prodn_zero dim _ k); [ring|lia|]. apply (Hap k); [lia|exact Hlt].
Qed.
Lemma mpoly_span q : total_degree dim deg q -> exists a, forall X, mpoly_at dim q X = row_comb a (map (G X) K).
Proof.
  induction 1 as [|[c e] q [Hl Hs] _ (a & Ha)]; [exists (fun _ => 0); intros X; symmetry; apply row_comb_0|].
  destruct (mono_span e Hl Hs) as (a' & Ha'). exists (fun i => c * a' i + a i). intros X.
  rewrite row_comb_add, row_comb_mul. cbn [mpoly_at fold_right fst snd]. rewrite Ha'. f_equal. apply Ha.
Qed.
End Span.

(** ** matrices of the object *)
Section Obj.
Variable jvpn : (list R -> R) -> list R -> list R -> R.
Hypothesis Hj : jvpn_ok jvpn.
Variables (be : backend) (f : fam) (n : list nat) (nC : mnc_arg) (deg dim : nat) (x0 xf w b : list R) (u : mtfc (T:=R)).
Hypothesis Hu : mkm be (MB f) n nC deg dim x0 xf w b = Some u.
Hypothesis Ha : argsm (MB f) nC deg dim x0 xf w b.
Hypothesis Hx : forall k, (k < dim)%nat -> nth k x0 0 < nth k xf 0.
Hypothesis Hn : forall k, (k < dim)%nat -> (2 <= nth k n 0)%nat.
Hypothesis He : forall k, (k < dim)%nat -> enough f deg (nth k n 0%nat).
Variable full : bool.

(** rows at points, in the order of the points *)
Lemma obj_rows : exists h : list nat -> pt -> list R,
  (forall d N x, length d = dim -> shaped x dim N -> mtfc_H ROps RFun jvpn u (md x) d full =
     Some (Mat N (mtfc_num u full) (map (fun j => h d (point_of (md x) j)) (seq 0 N)))) /\
  (forall d X, length (h d X) = mtfc_num u full) /\
  (forall d X Y, (forall k, (k < dim)%nat -> X k = Y k) -> h d X = h d Y) /\
  (forall a d ks, Permutation ks (seq 0 dim) -> mixed d ks (fun X => row_comb a (h (repeat 0%nat dim) X)) (fun X => row_comb a (h d X))) /\
  (shaped (Mat dim (product n) (m_x u)) dim (product n)) /\
  (forall a, (forall j, (j < product n)%nat -> row_comb a (h (repeat 0%nat dim) (point_of (m_x u) j)) = 0) -> forall i, (i < mtfc_num u full)%nat -> a i = 0) /\
  (full = true -> f <> FS -> forall q, total_degree dim deg q -> exists a, forall X, mpoly_at dim q X = row_comb a (h (repeat 0%nat dim) X)).
Proof.
  assert (Enum : mtfc_num u full = length (mK (MB f) dim deg nC full)).
  { destruct (mtfc_H_ok jvpn be (MB f) n nC deg dim x0 xf w b u (repeat 0%nat dim) full 0 (Mat dim 0 (repeat [] dim)) Hj Hu Ha) as (_ & E & _).
    - split; [apply repeat_length|exact I].
    - repeat split; cbn; [apply repeat_length|]. intros r Hr. apply repeat_spec in Hr. subst r. reflexivity.
    - exact E. }
  assert (HH : forall d N x, length d = dim -> shaped x dim N -> mtfc_H ROps RFun jvpn u (md x) d full =
     Some (Mat N (mtfc_num u full) (map (fun j => map (ndterm f x0 xf dim (point_of (md x) j) d) (mK (MB f) dim deg nC full)) (seq 0 N)))).
  { intros d N x Hd Hs. rewrite Enum. apply (mtfc_H_ok jvpn be (MB f) n nC deg dim x0 xf w b u d full N x Hj Hu Ha); [|exact Hs]. split; [exact Hd|exact I]. }
  assert (Hsh : shaped (Mat dim (product n) (m_x u)) dim (product n)).
  { destruct (c19 be (MB f) n nC deg dim x0 xf w b u Hu) as (HN & HL & Hrow). { intros k Hk. specialize (Hx k Hk). lra. }
    repeat split; cbn [mr mc md]; [exact HL|]. intros r Hr. apply In_nth_error in Hr as (k & Hk).
    assert (k < dim)%nat by (rewrite <- HL; apply nth_error_Some; congruence).
    destruct (Hrow k H) as (row & Er & El & _). congruence. }
  exists (fun d X => map (ndterm f x0 xf dim X d) (mK (MB f) dim deg nC full)). split; [|split; [|split; [|split; [|split; [|split]]]]].
  - exact HH.
  - intros d X. rewrite map_length. symmetry. exact Enum.
  - intros d X Y HXY. apply map_ext. intros v. unfold ndterm. apply prodn_ext. intros k Hk. rewrite HXY by exact Hk. reflexivity.
  - intros a d ks Hp. apply comb_mixed, Hp.
  - exact Hsh.
  - intros a Hz i Hi.
    destruct (grid_independent jvpn Hj be f n nC deg dim x0 xf w b u Hu Ha Hx Hn full He) as (M & EM & HI).
    pose proof (HH (repeat 0%nat dim) (product n) (Mat dim (product n) (m_x u)) (repeat_length _ _) Hsh) as EM'.
    pose proof (eq_trans (eq_sym EM) EM') as E. apply (f_equal (fun o => match o with Some x => x | None => M end)) in E. cbv beta iota in E.
    rewrite E in HI. apply (HI a); [|exact Hi]. intros row Hr. cbn [md] in Hr. apply in_map_iff in Hr as (j & <- & Hjn). apply in_seq in Hjn. apply Hz. lia.
  - intros -> Hf q Hq.
    destruct (mpoly_span f dim deg x0 xf (mK (MB f) dim deg nC true) (g_offered be f n nC deg dim x0 xf w b u Hu Ha) Hf Hx
      (g_Kfull be f n nC deg dim x0 xf w b u Hu Ha) (proj1 (g_K f nC deg dim true)) (proj2 (g_K f nC deg dim true)) q Hq) as (a & Hap).
    exists a. intros X. rewrite Hap. f_equal. apply map_ext. intros v. symmetry.
    apply (g_term be f n nC deg dim x0 xf w b u Hu Ha Hx X v).
Qed.
End Obj.
