(** Polynomials of bounded degree in each variable, and the equation off the grid (C95). *)
From Coq Require Import Reals Arith Lia Lra List Bool ZArith.
From Coquelicot Require Import Coquelicot.
From Verif Require Import Base ProofBase Numbers ModelBFPy ModelBFCpp ProofTab ProofBFPy ProofBFCpp SpecBasis
  ProofH ModelELM SpecELM ProofELM ModelND SpecND ProofND ProofND2 ModelNELM SpecNELM ProofNELM ProofNELM2
  ModelUtfc SpecUtfc ProofUtfc ModelMtfc SpecMtfc ProofMtfc ProofMtfc2 ProofMtfc3 ProofIndep SpecColl ProofColl PropColl SpecNColl ProofNColl ProofNRecover.
From Verif Require Import ModelOde SpecOde ProofOde PropOde ModelPde SpecPde ProofPde ProofPde2.
Import ListNotations.
Open Scope R_scope.

Section Pol.
Variable dim : nat.
Hypothesis Hdim : (0 < dim)%nat.
Notation pol := (polynomial dim).

Lemma pol_ext m z z' : (forall X, z X = z' X) -> pol m z -> pol m z'.
Proof.
  intros E H. apply (pol_plus dim m _ z (fun _ => 0) H); [apply pol_zero; reflexivity|]. intros X. rewrite E. ring.
Qed.
Lemma pol_mono m m' z : (forall k, (k < dim)%nat -> (m k <= m' k)%nat) -> pol m z -> pol m' z.
Proof.
  intros Hm. induction 1 as [z H|z c g Hg H|z a b _ IHa _ IHb H]; [apply pol_zero, H| |apply (pol_plus dim m' z a b); assumption].
  apply (pol_prod dim m' z c g); [|exact H]. intros k Hk. specialize (Hg k Hk). specialize (Hm k Hk). lia.
Qed.
Lemma pol_scal m a z : pol m z -> pol m (fun X => a * z X).
Proof.
  induction 1 as [z H|z c g Hg H|z a' b' _ IHa _ IHb H].
  - apply pol_zero. intros X. rewrite H. ring.
  - apply (pol_prod dim m _ (a * c) g Hg). intros X. rewrite H. ring.
  - apply (pol_plus dim m _ _ _ IHa IHb). intros X. rewrite H. ring.
Qed.
Lemma pol_minus m z w : pol m z -> pol m w -> pol m (fun X => z X - w X).
Proof. intros Hz Hw. apply (pol_plus dim m _ z (fun X => -1 * w X) Hz (pol_scal m _ w Hw)). intros X. ring. Qed.
Lemma pol_sep m z : pol m z -> separable dim z.
Proof.
  induction 1 as [z H|z c g Hg H|z a b _ IHa _ IHb H]; [apply sep_zero, H| |apply (sep_plus dim z a b); assumption].
  apply (sep_ext dim (fun X => c * (fun X => prodn dim (fun k => poly_at (g k) (X k))) X)); [intros X; symmetry; apply H|].
  apply sep_scal; [exact Hdim|]. apply (sep_prod dim _ (fun k => poly_at (g k))); [|reflexivity]. intros k.
  apply (smooth_ext (fun t => poly_at (g k) t * 1)); [intros; ring|]. apply (smooth_poly (g k) (fun _ => 1)), smooth_const.
Qed.
Definition replp (g : nat -> list R) (k : nat) (h : list R) : nat -> list R := fun i => if Nat.eqb i k then h else g i.
Lemma replp_prod g k h X : (k < dim)%nat ->
  prodn dim (fun i => poly_at (replp g k h i) (X i)) = prodn dim (fun i => if Nat.eqb i k then 1 else poly_at (g i) (X i)) * poly_at h (X k).
Proof.
  intros Hk. rewrite (prodn_split dim _ k Hk). unfold replp at 1. rewrite Nat.eqb_refl, Rmult_comm. f_equal. apply prodn_ext.
  intros i Hi. unfold replp. destruct (Nat.eqb i k); reflexivity.
Qed.
Lemma replp_length m g k h : (forall i, (i < dim)%nat -> (length (g i) <= m i)%nat) -> (length h <= m k)%nat -> forall i, (i < dim)%nat -> (length (replp g k h i) <= m i)%nat.
Proof. intros Hg Hh i Hi. unfold replp. destruct (Nat.eqb_spec i k) as [->|]; [exact Hh|apply Hg, Hi]. Qed.
Lemma D_pol z c g k e p X : (k < dim)%nat -> (forall X, z X = c * prodn dim (fun i => poly_at (g i) (X i))) ->
  Derive_n (fun t => z (upd X k t)) e p = c * (prodn dim (fun i => if Nat.eqb i k then 1 else poly_at (g i) (X i)) * Derive_n (poly_at (g k)) e p).
Proof.
  intros Hk H. rewrite (Derive_n_ext _ (fun t => c * prodn dim (fun i => poly_at (g i) (upd X k t i)))) by (intros; apply H).
  rewrite Derive_n_scal_l. f_equal.
  apply (D_prod dim (fun X => prodn dim (fun i => poly_at (g i) (X i))) (fun i => poly_at (g i)) k e p X Hk). reflexivity.
Qed.
(** a value at one place, times a polynomial of that variable *)
Lemma pol_fix m z k e p r : (k < dim)%nat -> (length r <= m k)%nat -> pol m z ->
  pol m (fun X => poly_at r (X k) * Derive_n (fun t => z (upd X k t)) e p).
Proof.
  intros Hk Hr. induction 1 as [z H|z c g Hg H|z a b Ha IHa Hb IHb H].
  - apply pol_zero. intros X. rewrite (Derive_n_ext _ (fun _ => 0)) by (intros; apply H). replace (Derive_n (fun _ : R => 0) e p) with 0; [ring|].
    destruct e; [reflexivity|]. symmetry. apply Derive_n_const.
  - apply (pol_prod dim m _ (c * Derive_n (poly_at (g k)) e p) (replp g k r)); [apply replp_length; assumption|].
    intros X. rewrite (D_pol z c g k e p X Hk H), replp_prod by exact Hk. ring.
  - apply (pol_plus dim m _ _ _ IHa IHb). intros X. rewrite (Derive_n_ext _ (fun t => a (upd X k t) + b (upd X k t))) by (intros; apply H).
    pose proof (D_plus dim a b k e p X Hk (pol_sep m a Ha) (pol_sep m b Hb)) as E. unfold D in E. rewrite E. ring.
Qed.
Lemma pol_part m z k e : (k < dim)%nat -> pol m z -> pol m (fun X => Derive_n (fun t => z (upd X k t)) e (X k)).
Proof.
  intros Hk. induction 1 as [z H|z c g Hg H|z a b Ha IHa Hb IHb H].
  - apply pol_zero. intros X. rewrite (Derive_n_ext _ (fun _ => 0)) by (intros; apply H). destruct e; [reflexivity|]. apply Derive_n_const.
  - apply (pol_prod dim m _ c (replp g k (pdern e (g k)))).
    + apply replp_length; [exact Hg|]. specialize (Hg k Hk). rewrite pdern_len. lia.
    + intros X. rewrite (D_pol z c g k e (X k) X Hk H), replp_prod by exact Hk. rewrite (poly_at_peval (pdern e (g k))), Derive_n_poly_at. reflexivity.
  - apply (pol_plus dim m _ _ _ IHa IHb). intros X. rewrite (Derive_n_ext _ (fun t => a (upd X k t) + b (upd X k t))) by (intros; apply H).
    apply (D_plus dim a b k e (X k) X Hk (pol_sep m a Ha) (pol_sep m b Hb)).
Qed.
Lemma pol_pdiff m d : forall k z, (k + length d <= dim)%nat -> pol m z -> pol m (pdiff k d z).
Proof.
  induction d as [|e d IH]; intros k z Hd Hz; cbn [pdiff]; [exact Hz|]. cbn [length] in Hd. apply IH; [lia|]. apply pol_part; [lia|exact Hz].
Qed.
(** products *)
Lemma pol_mul m1 m2 z w : pol m1 z -> pol m2 w -> pol (fun k => pred (m1 k + m2 k)) (fun X => z X * w X).
Proof.
  intros Hz. revert w. induction Hz as [z H|z c g Hg H|z a b _ IHa _ IHb H]; intros w Hw.
  - apply pol_zero. intros X. rewrite H. ring.
  - induction Hw as [w H'|w c' g' Hg' H'|w a' b' _ IHa' _ IHb' H'].
    + apply pol_zero. intros X. rewrite H'. ring.
    + assert (exists h, (forall k, (k < dim)%nat -> (length (h k) <= pred (m1 k + m2 k))%nat) /\ forall k, (k < dim)%nat -> forall x, poly_at (h k) x = poly_at (g k) x * poly_at (g' k) x) as (h & H1 & H2).
      { clear - Hg Hg'. induction dim as [|d IHd]; [exists (fun _ => []); split; intros; lia|].
        destruct IHd as (h & H1 & H2); try (intros; apply Hg || apply Hg'; lia).
        destruct (ProofOde.pmul (g d) (g' d)) as (l & Hl & El). exists (replp h d l). split; intros k Hk.
        - unfold replp. destruct (Nat.eqb_spec k d) as [->|]; [|apply H1; lia]. specialize (Hg d Hk). specialize (Hg' d Hk). lia.
        - intros x. unfold replp. destruct (Nat.eqb_spec k d) as [->|]; [|apply H2; lia]. rewrite !poly_at_peval. apply El. }
      apply (pol_prod dim _ _ (c * c') h H1). intros X. rewrite H, H'.
      rewrite (prodn_ext dim (fun k => poly_at (h k) (X k)) (fun k => poly_at (g k) (X k) * poly_at (g' k) (X k))) by (intros k Hk; apply H2, Hk).
      assert (prodn dim (fun k => poly_at (g k) (X k) * poly_at (g' k) (X k)) = prodn dim (fun k => poly_at (g k) (X k)) * prodn dim (fun k => poly_at (g' k) (X k))) as ->; [|ring].
      clear. induction dim as [|d IHd]; cbn [prodn]; [ring|]. rewrite IHd. ring.
    + apply (pol_plus dim _ _ _ _ IHa' IHb'). intros X. rewrite H'. ring.
  - apply (pol_plus dim _ _ _ _ (IHa w Hw) (IHb w Hw)). intros X. rewrite H. ring.
Qed.
(** the stages *)
Lemma pol_stages m phis : forall css k z, (k + length css <= dim)%nat ->
  (forall i cs c, nth_error css i = Some cs -> In c cs -> pol m (pc_val c) /\ forall X t, pc_val c (upd X (k + i) t) = pc_val c X) ->
  (forall i phi p, nth_error phis i = Some phi -> In p phi -> (length p <= m (k + i))%nat) -> pol m z -> pol m (stages k phis css z).
Proof.
  induction phis as [|phi phis IH]; intros [|cs css] k z Hl Hv Hp Hz; try exact Hz. cbn [stages]. cbn [length] in Hl. apply IH.
  - lia.
  - intros i cs' c Hi Hc. replace (S k + i)%nat with (k + S i)%nat by lia. apply (Hv (S i) cs' c Hi Hc).
  - intros i phi' p Hi Hin. replace (S k + i)%nat with (k + S i)%nat by lia. apply (Hp (S i) phi' p Hi Hin).
  - assert (H1 : forall c, In c cs -> pol m (pc_val c) /\ forall X t, pc_val c (upd X k t) = pc_val c X).
    { intros c Hc. specialize (Hv 0%nat cs c eq_refl Hc). rewrite Nat.add_0_r in Hv. exact Hv. }
    assert (H2 : forall p, In p phi -> (length p <= m k)%nat).
    { intros p Hin. specialize (Hp 0%nat phi p eq_refl Hin). rewrite Nat.add_0_r in Hp. exact Hp. }
    apply (pol_plus dim m _ z (corr k phi cs z) Hz); [|reflexivity]. clear - Hdim Hl H1 H2 Hz. revert cs H1 Hl.
    induction phi as [|p phi IH]; intros [|c cs] H1 Hl; try (apply pol_zero; reflexivity).
    apply (pol_plus dim m _ (fun X => poly_at p (X k) * (pc_val c X - imposed k c z X)) (corr k phi cs z)); [| |reflexivity].
    + apply (pol_ext m (fun X => poly_at p (X k) * Derive_n (fun t => pc_val c (upd X k t)) 0 0 - poly_at p (X k) * imposed k c z X)).
      * intros X. cbn [Derive_n]. rewrite (proj2 (H1 c (or_introl eq_refl))). ring.
      * apply pol_minus; apply pol_fix; try lia; try (apply H2; left; reflexivity); [apply H1; left; reflexivity|exact Hz].
    + apply IH; [intros p' Hin; apply H2; right; exact Hin|intros c' Hc; apply H1; right; exact Hc|exact Hl].
Qed.
Lemma pol_pde m mc co z : orders_fit dim co -> (forall a d, In (a, d) co -> pol mc a) -> pol m z -> pol (fun k => pred (mc k + m k)) (pde co z).
Proof.
  intros Ho Hc Hz. induction co as [|[a d] co IH]; [apply pol_zero; reflexivity|].
  apply (pol_plus dim _ _ (fun X => a X * pdiff 0 d z X) (pde co z)); [| |reflexivity].
  - apply pol_mul; [apply (Hc a d); left; reflexivity|]. apply pol_pdiff; [apply (Ho a d); left; reflexivity|exact Hz].
  - apply IH; [intros a' d' H; apply (Ho a' d'); right; exact H|intros a' d' H; apply (Hc a' d'); right; exact H].
Qed.
(** a polynomial is one of each variable, and is zero if it vanishes on a large enough grid *)
Lemma pol_line m z k X : (k < dim)%nat -> pol m z -> exists r, (length r <= m k)%nat /\ forall t, z (upd X k t) = poly_at r t.
Proof.
  intros Hk. induction 1 as [z H|z c g Hg H|z a b _ (r1 & L1 & E1) _ (r2 & L2 & E2) H].
  - exists []. split; [apply Nat.le_0_l|]. intros t. rewrite H. reflexivity.
  - exists (pscale (c * prodn dim (fun i => if Nat.eqb i k then 1 else poly_at (g i) (X i))) (g k)). split; [rewrite pscale_length; apply Hg, Hk|].
    intros t. pose proof (D_pol z c g k 0 t X Hk H) as E. cbn [Derive_n] in E. rewrite E, !poly_at_peval, peval_pscale. ring.
  - exists (padd r1 r2). split; [rewrite padd_length; lia|]. intros t. rewrite H, E1, E2, !poly_at_peval, peval_padd. reflexivity.
Qed.
Lemma pol_grid m z (P : nat -> list R) : pol m z -> (forall k, (k < dim)%nat -> NoDup (P k) /\ (m k <= length (P k))%nat) ->
  (forall X, (forall k, (k < dim)%nat -> In (X k) (P k)) -> z X = 0) -> forall X, z X = 0.
Proof.
  intros Hz HP Hg.
  assert (G : forall j, (j <= dim)%nat -> forall X, (forall k, (j <= k < dim)%nat -> In (X k) (P k)) -> z X = 0).
  { induction j as [|j IH]; intros Hj X HX; [apply Hg; intros k Hk; apply HX; lia|].
    assert (Hjd : (j < dim)%nat) by lia. destruct (pol_line m z j X Hjd Hz) as (r & Hr & Er). destruct (HP j Hjd) as [Hnd Hlen].
    assert (E : z (upd X j (X j)) = 0).
    { rewrite Er, poly_at_peval. apply (zero_everywhere r (P j) Hnd); [lia|]. intros t Ht. rewrite <- poly_at_peval, <- Er. apply IH; [lia|].
      intros k Hk. destruct (Nat.eq_dec k j) as [->|N]; [rewrite upd_same; exact Ht|rewrite upd_other by congruence; apply HX; lia]. }
    rewrite <- E. apply (sep_local dim z (pol_sep m z Hz)). intros k Hk. destruct (Nat.eq_dec k j) as [->|N]; [rewrite upd_same; reflexivity|rewrite upd_other by congruence; reflexivity]. }
  intros X. apply (G dim (le_n _) X). intros k Hk. lia.
Qed.
End Pol.

Section Obj.
Variables (be : backend) (f : fam) (n : list nat) (nC : mnc_arg) (deg dim : nat) (x0 xf w b : list R) (u : mtfc (T:=R)).
Variables (css : list (list pcond)) (phis : list (list (list R))).
Hypothesis Hu : mkm be (MB f) n nC deg dim x0 xf w b = Some u.
Hypothesis Hdim : (1 <= dim)%nat.
Hypothesis HnC : entries nC (counts css).
Hypothesis Hx : forall k, (k < dim)%nat -> nth k x0 0 < nth k xf 0.
Hypothesis Hcs : consistent dim css.
Hypothesis Hph : switchings css phis.
Hypothesis Hf : f <> FS.
Notation K full := (mK (MB f) dim deg nC full).
Notation pol := (polynomial dim).

Lemma o_count cs : In cs css -> (length cs <= deg)%nat.
Proof.
  intros Hin. pose proof (o_args f nC deg dim x0 xf w b css Hdim HnC) as Ha. pose proof Hu as Hi.
  apply mkm_inv in Hi as (_ & _ & H0 & Hf' & B & z0 & zf & z & x & Es & _ & _).
  destruct (msetup_ok be (MB f) nC deg dim x0 xf w b B z0 zf Ha H0 Hf' Es) as [HB _].
  cbn in HB. destruct HB as (M & EM & _). rewrite (entries_rows dim deg nC (counts css) HnC) in EM.
  unfold mtfc_rows in EM. destruct (Nat.eqb (length (counts css)) dim); [|discriminate].
  destruct (Z.ltb_spec (Z.of_nat deg) (nc_max (counts css))) as [|Hmax]; [discriminate|].
  assert (In (EInt (Z.of_nat (length cs))) (counts css)) as Hin' by (apply in_map_iff; exists cs; split; [reflexivity|exact Hin]).
  pose proof (proj1 (nc_max_le (counts css) (Z.of_nat deg) ltac:(lia)) Hmax _ Hin') as H. rewrite ent_max_count in H; [cbn in H; lia|].
  intros [a Ha']; discriminate.
Qed.
Lemma G_pol v : In v (K false) -> pol (fun _ => S deg) (G f dim x0 xf v).
Proof.
  intros Hv. assert (Hsum : (list_sum v <= deg)%nat).
  { unfold mK in Hv. destruct (mtfc_prod_nC dim deg nC); [|destruct Hv]. unfold idxs in Hv. apply filter_In in Hv as [_ H].
    unfold py_keep in H. cbv beta zeta iota in H. apply andb_prop in H. destruct H as [_ H]. apply Nat.leb_le in H. lia. }
  assert (Hle : forall k, (nth k v 0 <= deg)%nat).
  { intros k. destruct (Nat.lt_ge_cases k (length v)) as [H|H]; [|rewrite nth_overflow by exact H; lia].
    enough (nth k v 0 <= list_sum v)%nat by lia. clear - H. revert k H. induction v as [|a v IH]; intros [|k] H; cbn in *; try lia.
    specialize (IH k ltac:(lia)). unfold list_sum in IH. lia. }
  assert (exists g, forall k, (k < dim)%nat -> (length (g k) <= S deg)%nat /\ forall t, ndcol f x0 xf k t 0 (nth k v 0%nat) = poly_at (g k) t) as (g & Hg).
  { assert (forall d, (d <= dim)%nat -> exists g, forall k, (k < d)%nat -> (length (g k) <= S deg)%nat /\ forall t, ndcol f x0 xf k t 0 (nth k v 0%nat) = poly_at (g k) t) as H; [|apply (H dim); lia].
    induction d as [|d IH]; intros Hd; [exists (fun _ => []); intros; lia|]. destruct (IH ltac:(lia)) as (g & Hg).
    destruct (o_poly be f n nC deg dim x0 xf w b u css Hu Hdim HnC Hx d (nth d v 0%nat) Hf ltac:(lia)) as (r & Hr & Er).
    exists (fun k => if Nat.eqb k d then r else g k). intros k Hk. destruct (Nat.eqb_spec k d) as [->|N].
    - split; [rewrite Hr; specialize (Hle d); lia|exact Er].
    - apply Hg. lia. }
  apply (pol_prod dim _ _ 1 g); [intros k Hk; apply Hg, Hk|]. intros X. rewrite G_prod, Rmult_1_l. apply prodn_ext. intros k Hk. apply Hg, Hk.
Qed.
Lemma Z_pol a : (forall k c, among css k c -> pol (fun _ => S deg) (pc_val c)) -> pol (fun _ => S deg) (Z f nC deg dim x0 xf css phis a).
Proof.
  intros Hv. apply pol_stages.
  - exact Hdim.
  - rewrite (proj1 Hcs). reflexivity.
  - intros i cs c Hi Hc. split; [apply (Hv i c); exists cs; auto|apply (proj1 (proj2 Hcs) i c); exists cs; auto].
  - intros i phi p Hi Hp. assert (i < length phis)%nat by (apply nth_error_Some; congruence).
    assert (exists cs, nth_error css i = Some cs) as [cs Ecs].
    { clear - Hph H. revert i H. induction Hph as [|cs phi css' phis' _ H' IH]; intros [|i] H; cbn in *; try lia; [eauto|]. apply IH; [exact H'|lia]. }
    destruct (switchings_nth css phis Hph i cs Ecs) as (phi' & E' & Hs). rewrite Hi in E'. injection E' as <-.
    pose proof (proj1 (proj2 Hs) p Hp) as Hlp. pose proof (o_count cs (nth_error_In _ _ Ecs)).
    unfold one_variable in Hlp. rewrite map_length in Hlp. lia.
  - assert (G0 : forall v, In v (K false) -> pol (fun _ => S deg) (G f dim x0 xf v)) by exact G_pol. revert a. induction (K false) as [|v L IH]; intros a.
    + apply pol_zero. reflexivity.
    + apply (pol_plus dim _ _ (fun X => a 0%nat * G f dim x0 xf v X) (fun X => row_comb (fun i => a (S i)) (map (fun v => G f dim x0 xf v X) L))).
      * apply pol_scal, G0. left. reflexivity.
      * apply IH. intros v' Hv'. apply G0. right. exact Hv'.
      * reflexivity.
Qed.
Lemma off_grid m z : pol m z -> (forall k, (k < dim)%nat -> (m k <= nth k n 0)%nat) ->
  (forall j, (j < m_N u)%nat -> z (point_of (m_x u) j) = 0) -> forall X, z X = 0.
Proof.
  intros Hz Hm Hg. pose (P := fun k => map (point_rulem (MB f) (nth k x0 0) (nth k xf 0) (nth k n 0%nat - 1)) (seq 0 (nth k n 0%nat))).
  apply (pol_grid dim Hdim m z P Hz).
  - intros k Hk. split; [|unfold P; rewrite map_length, seq_length; apply Hm, Hk]. unfold P. apply NoDup_nth_error. rewrite map_length, seq_length.
    intros i j Hi E. rewrite !nth_error_map in E. rewrite (nth_error_nth' _ 0%nat) in E by (rewrite seq_length; exact Hi). rewrite seq_nth in E by exact Hi.
    destruct (Nat.lt_ge_cases j (nth k n 0%nat)) as [Hj|Hj].
    + rewrite (nth_error_nth' _ 0%nat) in E by (rewrite seq_length; exact Hj). rewrite seq_nth in E by exact Hj. cbn [option_map Nat.add] in E. injection E as E.
      apply (rulem_inj (MB f) (nth k x0 0) (nth k xf 0) (nth k n 0%nat - 1)); [apply Hx, Hk|lia|lia|exact E].
    + rewrite (proj2 (nth_error_None (seq 0 (nth k n 0%nat)) j)) in E by (rewrite seq_length; exact Hj). discriminate.
  - intros X HX.
    assert (exists a, forall k, (k < dim)%nat -> (a k < nth k n 0%nat)%nat /\ X k = point_rulem (MB f) (nth k x0 0) (nth k xf 0) (nth k n 0%nat - 1) (a k)) as (a & Ha).
    { assert (forall d, (d <= dim)%nat -> exists a, forall k, (k < d)%nat -> (a k < nth k n 0%nat)%nat /\ X k = point_rulem (MB f) (nth k x0 0) (nth k xf 0) (nth k n 0%nat - 1) (a k)) as H; [|apply (H dim); lia].
      induction d as [|d IH]; intros Hd; [exists (fun _ => 0%nat); intros; lia|]. destruct (IH ltac:(lia)) as (a & Ha).
      specialize (HX d ltac:(lia)). unfold P in HX. apply in_map_iff in HX as (i & Ei & Hi). apply in_seq in Hi.
      exists (fun k => if Nat.eqb k d then i else a k). intros k Hk. destruct (Nat.eqb_spec k d) as [->|N]; [split; [lia|symmetry; exact Ei]|apply Ha; lia]. }
    destruct (c19_exactly be (MB f) n nC deg dim x0 xf w b u a Hu Hx (fun k Hk => proj1 (Ha k Hk))) as (j & (Hj & He) & _).
    rewrite <- (Hg j Hj). apply (sep_local dim z (pol_sep dim Hdim m z Hz)). intros k Hk. rewrite (proj2 (Ha k Hk)). specialize (He k Hk).
    unfold ment in He. cbn [md] in He. unfold point_of. destruct (nth_error (m_x u) k) as [row|] eqn:Er; [|discriminate].
    rewrite (nth_error_nth _ _ _ Er), (nth_error_nth _ _ _ He). reflexivity.
Qed.
(** the equation at all points follows from the equation at the points of the grid *)
Lemma Z_everywhere a co q mc mq : orders_fit dim co -> (forall k c, among css k c -> pol (fun _ => S deg) (pc_val c)) ->
  (forall g d, In (g, d) co -> pol mc g) -> pol mq q -> (forall k, (k < dim)%nat -> (mc k + deg <= nth k n 0)%nat /\ (mq k <= nth k n 0)%nat) ->
  (forall j, (j < m_N u)%nat -> pde co (Z f nC deg dim x0 xf css phis a) (point_of (m_x u) j) = q (point_of (m_x u) j)) ->
  forall X, pde co (Z f nC deg dim x0 xf css phis a) X = q X.
Proof.
  intros Ho Hv Hc Hq Hm Hg X.
  assert (E : (fun X => pde co (Z f nC deg dim x0 xf css phis a) X - q X) X = 0); [|cbv beta in E; lra].
  apply (off_grid (fun k => nth k n 0%nat) (fun X => pde co (Z f nC deg dim x0 xf css phis a) X - q X)); [|reflexivity|intros j Hj; rewrite (Hg j Hj); ring].
  apply pol_minus.
  - apply (pol_mono dim Hdim (fun k => pred (mc k + S deg))); [intros k Hk; destruct (Hm k Hk); lia|]. apply (pol_pde dim Hdim (fun _ => S deg)); [exact Ho|exact Hc|]. apply Z_pol. exact Hv.
  - apply (pol_mono dim Hdim mq); [intros k Hk; apply Hm, Hk|exact Hq].
Qed.
End Obj.

(** ** an example: z_xy = 1 with z(0, y) = 0 and z(x, 0) = x *)
Definition ex_css : list (list pcond) := [[PCond 0 0 (fun _ => 0)]; [PCond 0 0 (fun X => X 0%nat)]].
Definition ex_phis : list (list (list R)) := [[[1]]; [[1]]].
Definition ex_co : list ((pt -> R) * list nat) := [(fun _ => 1, [1; 1]%nat)].
Definition ex_sol : mpoly := [(1, [1; 1]%nat); (1, [1; 0]%nat)].
Lemma ex_x0 : polynomial 2 (fun _ => 3%nat) (fun X => X 0%nat).
Proof.
  apply (pol_prod 2 _ _ 1 (fun k => match k with O => [0; 1] | _ => [1] end)); [intros [|k] _; cbn; lia|]. intros X. cbn. ring.
Qed.
Lemma ex_among k c : among ex_css k c -> (k = 0%nat /\ c = PCond 0 0 (fun _ => 0)) \/ (k = 1%nat /\ c = PCond 0 0 (fun X => X 0%nat)).
Proof.
  intros (cs & Hk & Hc). destruct k as [|[|k]]; cbn in Hk; [left|right|destruct k; discriminate]; injection Hk as <-; destruct Hc as [<-|[]]; split; reflexivity.
Qed.
Lemma ex_consistent : consistent 2 ex_css.
Proof.
  split; [reflexivity|]. split.
  - intros k c [[-> ->]|[-> ->]]%ex_among; cbn [pc_val].
    + split; [apply sep_zero; reflexivity|reflexivity].
    + split; [apply (pol_sep 2 ltac:(lia) _ _ ex_x0)|intros X t; reflexivity].
  - intros k c l c' [[-> ->]|[-> ->]]%ex_among [[-> ->]|[-> ->]]%ex_among N X; try congruence; reflexivity.
Qed.
Lemma ex_switchings : switchings ex_css ex_phis.
Proof.
  assert (H : forall v, switching (one_variable [PCond 0 0 v]) [[1]]).
  { intros v. split; [reflexivity|]. split; [intros p [<-|[]]; cbn; lia|]. intros [|i] [|j] c p Hi Hj; cbn in *; try (destruct i; discriminate); try (destruct j; discriminate).
    injection Hi as <-. injection Hj as <-. cbn. ring. }
  unfold switchings, ex_css, ex_phis. constructor; [apply H|]. constructor; [apply H|constructor].
Qed.
Lemma ex_degree : total_degree 2 2 ex_sol.
Proof. repeat constructor. Qed.
Lemma ex_sol_at X : mpoly_at 2 ex_sol X = X 0%nat * X 1%nat + X 0%nat.
Proof. cbn. ring. Qed.
Lemma ex_meets k c : among ex_css k c -> meetsp k c (mpoly_at 2 ex_sol).
Proof.
  intros [[-> ->]|[-> ->]]%ex_among X; unfold imposed; cbn [pc_ord pc_pt pc_val Derive_n]; rewrite ex_sol_at; unfold upd; cbn; ring.
Qed.
Lemma ex_pde X : pde ex_co (mpoly_at 2 ex_sol) X = 1.
Proof.
  cbn [pde ex_co pdiff Derive_n].
  rewrite (Derive_ext _ (fun t => t + 1)).
  - rewrite (is_derive_unique _ _ 1); [ring|]. auto_derive; [exact I|ring].
  - intros t. rewrite (Derive_ext _ (fun s => s * t + s)) by (intros s; rewrite ex_sol_at; unfold upd; reflexivity).
    apply is_derive_unique. auto_derive; [exact I|ring].
Qed.
