(** The functions of an mtfc object in a constrained expression (C95). *)
From Coq Require Import Reals Arith Lia Lra List Bool ZArith.
From Coquelicot Require Import Coquelicot.
From Verif Require Import Base ProofBase Numbers ModelBFPy ModelBFCpp ProofTab ProofBFPy ProofBFCpp SpecBasis
  ProofH ModelELM SpecELM ProofELM ModelND SpecND ProofND ProofND2 ModelNELM SpecNELM ProofNELM ProofNELM2
  ModelUtfc SpecUtfc ProofUtfc ModelMtfc SpecMtfc ProofMtfc ProofMtfc2 ProofMtfc3 ProofIndep SpecColl ProofColl PropColl SpecNColl ProofNColl ProofNRecover.
From Verif Require Import ModelOde SpecOde ProofOde PropOde ModelPde SpecPde ProofPde.
Import ListNotations.
Open Scope R_scope.

(** ** factors of low degree vanish *)
Lemma factor_low phi cs h r : switching (one_variable cs) phi -> (length r <= length cs)%nat -> (forall t, h t = poly_at r t) ->
  forall t, factor phi cs h t = 0.
Proof.
  intros Hs Hr Hh t.
  assert (E := @dual (one_variable cs) phi r (length cs) Hs (map_length _ _) Hr
    (map (fun c => - Derive_n (poly_at r) (pc_ord c) (pc_pt c)) cs) t (map_length _ _)).
  rewrite <- poly_at_peval, <- Hh in E. unfold factor. rewrite <- E.
  - clear -Hh. assert (switch phi (one_variable cs) (map (fun c => - Derive_n (poly_at r) (pc_ord c) (pc_pt c)) cs) 0 t =
      fold_right Rplus 0 (map (fun pc => poly_at (fst pc) t * Derive_n h (pc_ord (snd pc)) (pc_pt (snd pc))) (combine phi cs))); [|lra].
    revert cs. induction phi as [|p phi IH]; intros [|c cs]; try reflexivity. cbn [one_variable map switch combine fold_right fst snd c_val].
    rewrite IH. rewrite (Derive_n_ext h (poly_at r)) by exact Hh. cbn [Derive_n]. ring.
  - intros i c Hi. unfold one_variable in Hi. rewrite nth_error_map in Hi. destruct (nth_error cs i) as [c'|] eqn:Ec; [|discriminate]. injection Hi as <-.
    cbn [c_val c_ord c_pt]. rewrite (nth_indep _ 0 (- Derive_n (poly_at r) (pc_ord c') (pc_pt c'))) by (rewrite map_length; apply nth_error_Some; congruence).
    rewrite (map_nth (fun c => - Derive_n (poly_at r) (pc_ord c) (pc_pt c))). rewrite (nth_error_nth _ _ c' Ec). ring.
Qed.


Section Obj.
Variable jvpn : (list R -> R) -> list R -> list R -> R.
Hypothesis Hj : jvpn_ok jvpn.
Variables (be : backend) (f : fam) (n : list nat) (nC : mnc_arg) (deg dim : nat) (x0 xf w b : list R) (u : mtfc (T:=R)).
Variables (css : list (list pcond)) (phis : list (list (list R))).
Hypothesis Hu : mkm be (MB f) n nC deg dim x0 xf w b = Some u.
Hypothesis Hdim : (1 <= dim)%nat.
Hypothesis HnC : entries nC (counts css).
Hypothesis Hx : forall k, (k < dim)%nat -> nth k x0 0 < nth k xf 0.
Hypothesis Hcs : consistent dim css.
Hypothesis Hph : switchings css phis.
Notation sep := (separable dim).
Notation K full := (mK (MB f) dim deg nC full).
Notation zd := (repeat 0%nat dim).
Definition G (v : list nat) (X : pt) : R := ndterm f x0 xf dim X zd v.

Lemma o_args : argsm (MB f) nC deg dim x0 xf w b.
Proof. split; [exact Hdim|]. clear - HnC. destruct nC; try exact I. destruct HnC. Qed.
Lemma o_vals : vals_ok dim 0 css.
Proof. intros i cs c Hi Hc. apply (proj1 (proj2 Hcs) i c). exists cs. split; assumption. Qed.
Lemma col_smooth k a : smooth (fun t => ndcol f x0 xf k t 0 a).
Proof. apply (smooth_tower (fun e t => ndcol f x0 xf k t e a)). intros e t. apply ndcol_derive. Qed.
Lemma G_prod v X : G v X = prodn dim (fun k => (fun t => ndcol f x0 xf k t 0 (nth k v 0%nat)) (X k)).
Proof. unfold G, ndterm. apply prodn_ext. intros k Hk. rewrite nth_repeat. reflexivity. Qed.
Lemma G_sep v : sep (G v).
Proof. apply (sep_prod dim _ (fun k t => ndcol f x0 xf k t 0 (nth k v 0%nat))); [intros k; apply col_smooth|apply G_prod]. Qed.
Lemma o_num full : mtfc_num u full = length (K full).
Proof.
  destruct (mtfc_H_ok jvpn be (MB f) n nC deg dim x0 xf w b u zd full 0 (Mat dim 0 (repeat [] dim)) Hj Hu o_args) as (_ & E & _).
  - split; [apply repeat_length|exact I].
  - repeat split; cbn; [apply repeat_length|]. intros r Hr. apply repeat_spec in Hr. subst r. reflexivity.
  - exact E.
Qed.
Lemma o_free xi X : free jvpn u dim xi X = Some (row_comb xi (map (fun v => G v X) (K false))).
Proof.
  unfold free.
  destruct (mtfc_H_ok jvpn be (MB f) n nC deg dim x0 xf w b u zd false 1 (one_point dim X) Hj Hu o_args) as (E & _).
  - split; [apply repeat_length|exact I].
  - repeat split; cbn; [rewrite map_length, seq_length; reflexivity|]. intros r Hr. apply in_map_iff in Hr as (k & <- & _). reflexivity.
  - rewrite E. cbn. f_equal. f_equal. apply map_ext. intros v. unfold G, ndterm. apply prodn_ext. intros k Hk.
    f_equal. unfold xat, one_point. cbn [md]. rewrite (nth_indep _ [] [X 0%nat]) by (rewrite map_length, seq_length; exact Hk).
    rewrite (map_nth (fun k => [X k]) (seq 0 dim) 0%nat k), seq_nth by exact Hk. reflexivity.
Qed.
Lemma o_removed v : In v (K true) -> ~ In v (K false) -> forall k cs, nth_error css k = Some cs -> (nth k v 0 < length cs)%nat.
Proof.
  pose proof o_args as Ha. pose proof Hu as Hi. apply mkm_inv in Hi as (_ & _ & H0 & Hf & B & z0 & zf & z & x & Es & _ & _).
  destruct (msetup_ok be (MB f) nC deg dim x0 xf w b B z0 zf Ha H0 Hf Es) as [HB _].
  cbn in HB. destruct HB as (M & EM & Hargs & _). unfold mK. rewrite EM. rewrite !idxs_in by (try lia; apply Hargs).
  intros (Hl & Hd & _) Hno k cs Hk. destruct (Nat.lt_ge_cases (nth k v 0%nat) (length cs)) as [H|H]; [exact H|]. exfalso. apply Hno.
  split; [exact Hl|]. split; [exact Hd|]. right. pose proof EM as EM'. rewrite (entries_rows dim deg nC (counts css) HnC) in EM'.
  assert (EM2 : md M = map (ent_row (Z.to_nat (nc_max (counts css)))) (counts css)).
  { unfold mtfc_rows in EM'. destruct (Nat.eqb (length (counts css)) dim); [|discriminate].
    destruct (Z.ltb (Z.of_nat deg) (nc_max (counts css))); [discriminate|]. injection EM' as <-. reflexivity. }
  assert (k < dim)%nat as Hkd by (rewrite <- (proj1 Hcs); apply nth_error_Some; congruence).
  exists k, (ent_row (Z.to_nat (nc_max (counts css))) (EInt (Z.of_nat (length cs)))), (nth k v 0%nat).
  split; [rewrite EM2; unfold counts; rewrite !nth_error_map, Hk; reflexivity|]. split.
  - apply nth_error_nth'. lia.
  - rewrite ent_row_names by (intros [a Hs]; discriminate). cbn. lia.
Qed.
Lemma o_poly k a : f <> FS -> (k < dim)%nat -> exists r, length r = S a /\ forall t, ndcol f x0 xf k t 0 a = poly_at r t.
Proof.
  intros Hf Hk. specialize (Hx k Hk).
  assert (Hg : graded (fun i x => ftab f (0 + i) 0 (slope f (nth k x0 0) (nth k xf 0) * x + offset f (nth k x0 0) (nth k xf 0)))).
  { apply cols_graded; [exact Hf|apply slope_nz; [exact Hf|lra]]. }
  destruct (Hg a) as (r & Hr & _ & E). exists r. split; [exact Hr|]. intros t. rewrite poly_at_peval, <- E.
  rewrite <- zmap_affine by (try lra; assumption). unfold ndcol. cbn [pow]. rewrite Rmult_1_r. 
  replace ((t - nth k x0 0) * nd_ci f x0 xf k + nd_z0 f) with (SpecBasis.zmap f (nth k x0 0) (nth k xf 0) t).
  - destruct f; try reflexivity. congruence.
  - unfold nd_ci, nd_z0, nd_zf. destruct (g_offered be f n nC deg dim x0 xf w b u Hu o_args) as [-> |[-> | ->]]; cbn; field; lra.
Qed.
Lemma switchings_nth k cs : nth_error css k = Some cs -> exists phi, nth_error phis k = Some phi /\ switching (one_variable cs) phi.
Proof.
  clear - Hph. intros Hk. revert k Hk. induction Hph as [|cs' phi' css' phis' H1 H2 IH]; intros [|k] Hk; try discriminate; cbn in Hk.
  - injection Hk as ->. exists phi'. split; [reflexivity|exact H1].
  - apply (IH H2 k Hk).
Qed.
(** functions whose index in some variable is below the number of conditions there *)
Lemma o_redundant v k cs : f <> FS -> nth_error css k = Some cs -> (nth k v 0 < length cs)%nat ->
  forall X, stages 0 phis (map (map zero_val) css) (G v) X = 0.
Proof.
  intros Hf Hk Hv.
  assert (k < dim)%nat as Hkd by (rewrite <- (proj1 Hcs); apply nth_error_Some; congruence).
  apply (stages_prod dim phis css 0 (G v) (fun k t => ndcol f x0 xf k t 0 (nth k v 0%nat))); [rewrite (proj1 Hcs); reflexivity|apply G_prod|].
  destruct (switchings_nth k cs Hk) as (phi & Hphi & Hs).
  exists k, phi, cs. split; [exact Hphi|]. split; [exact Hk|]. cbn [Nat.add].
  destruct (o_poly k (nth k v 0%nat) Hf Hkd) as (r & Hr & Er). apply (factor_low phi cs _ r); [exact Hs|lia|exact Er].
Qed.
(** the expression for coefficients [a] *)
Definition Z (a : nat -> R) (X : pt) : R := stages 0 phis css (fun X => row_comb a (map (fun v => G v X) (K false))) X.
Lemma Z_comb a X : Z a X = stages 0 phis css (fun _ => 0) X + row_comb a (map (fun v => stages 0 phis (map (map zero_val) css) (G v) X) (K false)).
Proof.
  unfold Z. pose proof (stages_comb dim phis css (map G (K false)) Hdim) as H. rewrite (proj1 Hcs) in H. specialize (H (le_n _) o_vals).
  rewrite <- (map_map G (fun g => stages 0 phis (map (map zero_val) css) g X)). rewrite <- H.
  - apply stages_ext. intros Y. rewrite map_map. reflexivity.
  - intros g Hg. apply in_map_iff in Hg as (v & <- & _). apply G_sep.
Qed.
Lemma free_sep a : sep (fun X => row_comb a (map (fun v => G v X) (K false))).
Proof.
  apply (sep_ext dim (fun X => row_comb a (map (fun g => g X) (map G (K false))))); [intros X; rewrite map_map; reflexivity|].
  apply comb_sep; [exact Hdim|]. intros g Hg. apply in_map_iff in Hg as (v & <- & _). apply G_sep.
Qed.
Lemma Z_sep a : sep (Z a).
Proof. apply stages_sep; [rewrite (proj1 Hcs); reflexivity|exact o_vals|apply free_sep]. Qed.
Lemma Z_meets a k c : among css k c -> meetsp k c (Z a).
Proof.
  intros (cs & Hk & Hc).
  apply (stages_meet dim phis css 0 (fun X => row_comb a (map (fun v => G v X) (K false)))) with (i := k) (cs := cs); try assumption.
  - rewrite (proj1 Hcs). reflexivity.
  - exact o_vals.
  - apply free_sep.
  - intros i cs1 c1 j cs2 c2 E1 H1 E2 H2 N X. apply (proj2 (proj2 Hcs) i c1 j c2); [exists cs1; auto|exists cs2; auto|exact N].
Qed.
Lemma Z_surface xi : surface jvpn u dim css phis xi (Z xi).
Proof. exists (fun X => row_comb xi (map (fun v => G v X) (K false))). split; [intros X; apply o_free|reflexivity]. Qed.
Lemma surface_Z xi z : surface jvpn u dim css phis xi z -> forall X, z X = Z xi X.
Proof.
  intros (g & Hg & Hz) X. rewrite Hz. apply stages_ext. intros Y. specialize (Hg Y). rewrite o_free in Hg. congruence.
Qed.
Lemma mpoly_sep q : sep (mpoly_at dim q).
Proof.
  induction q as [|[c e] q IH]; [apply sep_zero; reflexivity|].
  apply (sep_plus dim _ (fun X => c * prodn dim (fun k => X k ^ nth k e 0%nat)) (mpoly_at dim q)); [|exact IH|reflexivity].
  apply sep_scal; [exact Hdim|]. apply (sep_prod dim _ (fun k t => t ^ nth k e 0%nat)); [|reflexivity].
  intros k. generalize (nth k e 0%nat) as m. induction m as [|m IHm]; [apply (smooth_const 1)|]. apply (smooth_times (fun t => t ^ m)), IHm.
Qed.
(** polynomials that meet the conditions *)
Lemma Z_complete q : f <> FS -> total_degree dim deg q -> (forall k c, among css k c -> meetsp k c (mpoly_at dim q)) ->
  exists a, forall X, Z a X = mpoly_at dim q X.
Proof.
  intros Hf Hq Hm.
  destruct (mpoly_span f dim deg x0 xf (K true) (g_offered be f n nC deg dim x0 xf w b u Hu o_args) Hf Hx
      (g_Kfull be f n nC deg dim x0 xf w b u Hu o_args) (proj1 (g_K f nC deg dim true)) (proj2 (g_K f nC deg dim true)) q Hq) as (a & Hap).
  pose (h := fun v : list nat => match find (fun p => if list_eq_dec Nat.eq_dec (fst p) v then true else false) (combine (K true) (map a (seq 0 (length (K true))))) with Some p => snd p | None => 0 end).
  assert (Hh : forall i v, nth_error (K true) i = Some v -> a i = h v).
  { assert (Hnd : NoDup (K true)) by exact (proj1 (g_K f nC deg dim true)). unfold h. revert Hnd. generalize (K true). clear. intros L Hnd.
    assert (forall m i v, nth_error L i = Some v -> match find (fun p => if list_eq_dec Nat.eq_dec (fst p) v then true else false) (combine L (map a (seq m (length L)))) with Some p => snd p | None => 0 end = a (m + i)%nat) as H.
    { induction Hnd as [|v L' Hni Hnd IH]; intros m [|i] v' E; try discriminate; cbn in E.
      - injection E as ->. cbn [find combine map seq length fst]. destruct (list_eq_dec Nat.eq_dec v' v'); [|contradiction]. cbn [snd]. rewrite Nat.add_0_r. reflexivity.
      - cbn [find combine map seq length fst]. destruct (list_eq_dec Nat.eq_dec v v') as [->|N]; [exfalso; apply Hni; apply nth_error_In with i; exact E|].
        rewrite (IH (S m) i v' E). f_equal. lia. }
    intros i v E. specialize (H 0%nat i v E). symmetry. exact H. }
  exists (fun i => h (nth i (K false) [])). intros X.
  assert (Hkeep : forall (g : list nat -> R), row_comb (fun i => h (nth i (K false) [])) (map g (K false)) = sumL (fun v => h v * g v) (K false)).
  { intros g. apply row_comb_nth. intros i v E. rewrite (nth_error_nth _ _ _ E). reflexivity. }
  rewrite Z_comb, Hkeep.
  rewrite <- (sumL_support (fun v => h v * stages 0 phis (map (map zero_val) css) (G v) X) (K false) (K true)).
  - rewrite <- (row_comb_nth (K true) h (fun v => stages 0 phis (map (map zero_val) css) (G v) X) a) by exact Hh.
    pose proof (stages_comb dim phis css (map G (K true)) Hdim) as H. rewrite (proj1 Hcs) in H. specialize (H (le_n _) o_vals).
    rewrite <- (map_map G (fun g => stages 0 phis (map (map zero_val) css) g X)). rewrite <- H.
    + rewrite (stages_ext phis css 0 _ (mpoly_at dim q)).
      * apply stages_met. intros i cs c Hi Hc. apply Hm. exists cs. auto.
      * intros Y. rewrite Hap, map_map. f_equal. apply map_ext. intros v. apply (g_term be f n nC deg dim x0 xf w b u Hu o_args Hx Y v).
    + intros g Hg. apply in_map_iff in Hg as (v & <- & _). apply G_sep.
  - apply g_K.
  - apply g_K.
  - intros v Hv. unfold mK in *. destruct (mtfc_prod_nC dim deg nC); [|destruct Hv]. unfold idxs in *. apply filter_In in Hv as [H1 H2]. apply filter_In. split; [exact H1|].
    unfold py_keep in *. cbv beta zeta iota in *. apply andb_prop in H2. apply H2.
  - intros v Hv Hno. destruct css as [|cs0 css'] eqn:Ecs; [destruct Hcs as [E _]; cbn in E; lia|]. rewrite <- Ecs in *.
    rewrite (o_redundant v 0 cs0 Hf); [ring|rewrite Ecs; reflexivity|]. apply (o_removed v Hv Hno 0 cs0). rewrite Ecs. reflexivity.
Qed.
(** the operator on the expression is affine in the coefficients *)
Lemma Z_pde co a X : orders_fit dim co ->
  pde co (Z a) X = pde co (stages 0 phis css (fun _ => 0)) X +
    row_comb a (map (fun v => pde co (stages 0 phis (map (map zero_val) css) (G v)) X) (K false)).
Proof.
  intros Ho. pose (W := fun v => stages 0 phis (map (map zero_val) css) (G v)).
  rewrite (pde_ext co (Z a) (fun X => stages 0 phis css (fun _ => 0) X + row_comb a (map (fun g => g X) (map W (K false))))).
  - rewrite (pde_comb dim co (map W (K false)) (stages 0 phis css (fun _ => 0)) Hdim Ho).
    + rewrite map_map. reflexivity.
    + apply stages_sep; [rewrite (proj1 Hcs); reflexivity|exact o_vals|apply sep_zero; reflexivity].
    + intros g Hg. apply in_map_iff in Hg as (v & <- & _). apply stages_sep.
      * rewrite map_length, (proj1 Hcs). reflexivity.
      * apply zeros_ok; try exact Hdim. exact o_vals.
      * apply G_sep.
  - intros Y. rewrite Z_comb, map_map. reflexivity.
Qed.
(** a function that is kept: one variable only, with as high an index as it has conditions *)
Lemma o_one l : (l < dim)%nat -> exists v, In v (K false) /\ forall k, (k < dim)%nat -> k <> l -> nth k v 0%nat = 0%nat.
Proof.
  intros Hl. pose proof o_args as Ha. pose proof Hu as Hi. apply mkm_inv in Hi as (_ & _ & H0 & Hf & B & z0 & zf & z & x & Es & _ & _).
  destruct (msetup_ok be (MB f) nC deg dim x0 xf w b B z0 zf Ha H0 Hf Es) as [HB _].
  cbn in HB. destruct HB as (M & EM & Hargs & _). unfold mK. rewrite EM.
  destruct (nth_error css l) as [cl|] eqn:El; [|apply nth_error_None in El; destruct Hcs as [E _]; lia].
  pose proof EM as EM'. rewrite (entries_rows dim deg nC (counts css) HnC) in EM'.
  unfold mtfc_rows in EM'. destruct (Nat.eqb (length (counts css)) dim); [|discriminate].
  destruct (Z.ltb_spec (Z.of_nat deg) (nc_max (counts css))) as [|Hmax]; [discriminate|]. injection EM' as EM'.
  assert (Hcl : (length cl <= deg)%nat).
  { assert (In (EInt (Z.of_nat (length cl))) (counts css)) as Hin by (apply in_map_iff; exists cl; split; [reflexivity|apply nth_error_In with l; exact El]).
    pose proof (proj1 (nc_max_le (counts css) (Z.of_nat deg) ltac:(lia)) Hmax _ Hin) as H. rewrite ent_max_count in H; [cbn in H; lia|]. intros [a Ha']; discriminate. }
  exists (map (fun i => if Nat.eqb i l then length cl else 0%nat) (seq 0 dim)).
  assert (Hn : forall i, (i < dim)%nat -> nth_error (map (fun i => if Nat.eqb i l then length cl else 0%nat) (seq 0 dim)) i = Some (if Nat.eqb i l then length cl else 0%nat)).
  { intros i Hi. rewrite nth_error_map. rewrite (nth_error_nth' _ 0%nat) by (rewrite seq_length; exact Hi). rewrite seq_nth by exact Hi. reflexivity. }
  split.
  - apply idxs_in; [lia|apply Hargs|]. split; [rewrite map_length, seq_length; reflexivity|]. split.
    + replace (S deg - 1)%nat with deg by lia. transitivity (length cl); [|exact Hcl].
      assert (G0 : forall m s, (list_sum (map (fun i => if Nat.eqb i l then length cl else 0%nat) (seq s m)) <= if Nat.ltb l s then 0 else length cl)%nat).
      { induction m as [|m IH]; intros s; [apply Nat.le_0_l|]. cbn [seq map]. change (list_sum (?a :: ?r)) with (a + list_sum r)%nat.
        specialize (IH (S s)). destruct (Nat.eqb_spec s l), (Nat.ltb_spec l s), (Nat.ltb_spec l (S s)); lia. }
      specialize (G0 dim 0%nat). destruct (Nat.ltb_spec l 0); lia.
    + right. exists l, (ent_row (Z.to_nat (nc_max (counts css))) (EInt (Z.of_nat (length cl)))), (length cl).
      split; [rewrite <- EM'; cbn [md]; unfold counts; rewrite !nth_error_map, El; reflexivity|]. split.
      * rewrite Hn by exact Hl. rewrite Nat.eqb_refl. reflexivity.
      * rewrite ent_row_names by (intros [a Hs]; discriminate). cbn. lia.
  - intros k Hk N. rewrite (nth_error_nth _ _ _ (Hn k Hk)). destruct (Nat.eqb_spec k l); [congruence|reflexivity].
Qed.
(** with a second variable, one that changes nothing *)
Lemma o_kept k cs : (2 <= dim)%nat -> nth_error css k = Some cs -> cs <> [] -> exists v, In v (K false) /\ (nth k v 0 < length cs)%nat.
Proof.
  intros H2 Hk Hne.
  assert (Hkd : (k < dim)%nat) by (rewrite <- (proj1 Hcs); apply nth_error_Some; congruence).
  assert (exists l, (l < dim)%nat /\ l <> k) as (l & Hl & Hlk).
  { destruct k as [|k]; [exists 1%nat|exists 0%nat]; lia. }
  destruct (o_one l Hl) as (v & Hv & Hz). exists v. split; [exact Hv|]. rewrite (Hz k Hkd) by congruence. destruct cs; [congruence|]. cbn. lia.
Qed.
(** its coefficient does not matter *)
Lemma Z_redundant v k cs i : f <> FS -> nth_error (K false) i = Some v -> nth_error css k = Some cs -> (nth k v 0 < length cs)%nat ->
  forall a a', (forall j, j <> i -> a j = a' j) -> forall X, Z a X = Z a' X.
Proof.
  intros Hf Hi Hk Hv a a' Ha X. rewrite !Z_comb. f_equal.
  pose (g := fun v => stages 0 phis (map (map zero_val) css) (G v) X).
  change (row_comb a (map g (K false)) = row_comb a' (map g (K false))).
  assert (Hg : nth_error (map g (K false)) i = Some 0) by (rewrite nth_error_map, Hi; cbn; f_equal; apply (o_redundant v k cs Hf Hk Hv)).
  revert Hg. generalize (map g (K false)) as l. clear -Ha. intros l. revert i a a' Ha. induction l as [|x l IH]; intros i a a' Ha Hg; [reflexivity|].
  destruct i as [|i]; cbn in *.
  - injection Hg as ->. rewrite !Rmult_0_r. f_equal. revert a a' Ha. clear. induction l as [|y l IH]; intros a a' Ha; [reflexivity|]. cbn. rewrite (Ha 1%nat) by lia. f_equal.
    apply (IH (fun j => a (S j)) (fun j => a' (S j))). intros j Hj. apply Ha. lia.
  - rewrite (Ha 0%nat) by lia. f_equal. apply (IH i); [|exact Hg]. intros j Hj. apply Ha. lia.
Qed.
End Obj.
