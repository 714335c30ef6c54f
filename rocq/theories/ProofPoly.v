(** The recurrence tables are the classical polynomials. *)
From Coq Require Import Reals Arith Lia Lra List Bool ZArith.
From Coquelicot Require Import Coquelicot.
From Verif Require Import Base ProofBase Numbers ModelBFPy ModelBFCpp ProofTab ProofBFPy ProofBFCpp SpecBasis ProofH.
Import ListNotations.
Open Scope R_scope.

Lemma zmap_ok f x0 xf nC m x : x0 <> xf ->
  (x - b_x0 (fam_init ROps RFun f x0 xf nC m)) * b_c (fam_init ROps RFun f x0 xf nC m)
     + b_z0 (fam_init ROps RFun f x0 xf nC m) = zmap f x0 xf x.
Proof.
  intros Hx. destruct f; cbn; try (field; lra).
Qed.

Lemma entry_col be f x0 xf nC m xs j k x : x0 <> xf -> (k < m)%nat -> nth_error xs j = Some x ->
  entry_is be f x0 xf nC m xs 0 j k (col f k 0 (zmap f x0 xf x)).
Proof.
  intros Hx Hk Hj. eexists. split; [apply H1_full; lia|].
  rewrite full_mat_ent, Hj, fam_init_m. destruct (Nat.ltb_spec k m); [|lia].
  rewrite zmap_ok by exact Hx. cbn [pow]. rewrite Rmult_1_r. reflexivity.
Qed.

Lemma tab_step0 f k z : ftab f (S (S k)) 0 z =
  (ca f (S k) * z + cb f (S k)) * ftab f (S k) 0 z - cc f (S k) * ftab f k 0 z.
Proof. unfold ftab. rewrite tab_SS. cbn [INR]. ring. Qed.
Lemma tab_step1 f k z : ftab f (S (S k)) 1 z =
  (ca f (S k) * z + cb f (S k)) * ftab f (S k) 1 z + ca f (S k) * ftab f (S k) 0 z - cc f (S k) * ftab f k 1 z.
Proof. unfold ftab. rewrite tab_SS. cbn [INR pred]. ring. Qed.

(** ** Chebyshev *)
Lemma cheb_cos k t : ftab CP k 0 (cos t) = cos (INR k * t).
Proof.
  enough (ftab CP k 0 (cos t) = cos (INR k * t) /\ ftab CP (S k) 0 (cos t) = cos (INR (S k) * t)) by tauto.
  induction k as [|k [IH0 IH1]].
  - split.
    + unfold ftab; rewrite tab_0. cbn [INR]. rewrite Rmult_0_l, cos_0. reflexivity.
    + unfold ftab; rewrite tab_1. cbn. rewrite !Rmult_1_l. ring.
  - split; [exact IH1|]. rewrite tab_step0, IH0, IH1. unfold ca, cb, cc.
    replace (INR (S (S k)) * t) with (INR (S k) * t + t) by (rewrite (S_INR (S k)); ring).
    replace (INR k * t) with (INR (S k) * t - t) by (rewrite S_INR; ring).
    rewrite cos_plus, cos_minus. ring.
Qed.

(** ** Legendre *)
Lemma leg_rels z k :
  ftab LeP (S k) 1 z = z * ftab LeP k 1 z + (INR k + 1) * ftab LeP k 0 z /\
  z * ftab LeP (S k) 1 z - ftab LeP k 1 z = (INR k + 1) * ftab LeP (S k) 0 z.
Proof.
  induction k as [|k [IHA IHB]].
  - unfold ftab. rewrite !tab_0, !tab_1. cbn. split; field.
  - pose proof (pos_INR k) as Hp.
    assert (HA : ftab LeP (S (S k)) 1 z = z * ftab LeP (S k) 1 z + (INR (S k) + 1) * ftab LeP (S k) 0 z).
    { rewrite tab_step1. unfold ca, cb, cc. rewrite S_INR.
      assert (Hq : ftab LeP k 1 z = z * ftab LeP (S k) 1 z - (INR k + 1) * ftab LeP (S k) 0 z) by lra.
      rewrite Hq. field. lra. }
    split; [exact HA|]. rewrite HA, tab_step0. unfold ca, cb, cc. rewrite S_INR.
    assert (HC : (z * z - 1) * ftab LeP (S k) 1 z = (INR k + 1) * (z * ftab LeP (S k) 0 z - ftab LeP k 0 z)).
    { assert (Hq : ftab LeP k 1 z = z * ftab LeP (S k) 1 z - (INR k + 1) * ftab LeP (S k) 0 z) by lra.
      rewrite Hq in IHA. set (a := ftab LeP (S k) 1 z) in *. set (b := ftab LeP (S k) 0 z) in *.
      set (c := ftab LeP k 0 z) in *. clearbody a b c. clear -IHA. nra. }
    set (a := ftab LeP (S k) 1 z) in *. set (b := ftab LeP (S k) 0 z) in *.
    set (c := ftab LeP k 0 z) in *. clearbody a b c.
    replace (z * (z * a + (INR k + 1 + 1) * b) - a) with ((z * z - 1) * a + z * (INR k + 1 + 1) * b) by ring.
    rewrite HC. field. lra.
Qed.

Lemma leg_ode k z : (1 - z ^ 2) * ftab LeP k 2 z - 2 * z * ftab LeP k 1 z
   + INR k * (INR k + 1) * ftab LeP k 0 z = 0.
Proof.
  destruct k as [|k].
  - unfold ftab. rewrite !tab_0. cbn [INR]. ring.
  - assert (Hc : forall z, (1 - z ^ 2) * ftab LeP (S k) 1 z = (INR k + 1) * (ftab LeP k 0 z - z * ftab LeP (S k) 0 z)).
    { intros t. destruct (leg_rels t k) as [A B].
      set (a := ftab LeP (S k) 1 t) in *. set (b := ftab LeP (S k) 0 t) in *.
      set (c := ftab LeP k 0 t) in *. set (e := ftab LeP k 1 t) in *. clearbody a b c e.
      assert (He : e = t * a - (INR k + 1) * b) by lra. rewrite He in A. nra. }
    assert (D1 : is_derive (fun t => (1 - t ^ 2) * ftab LeP (S k) 1 t) z
               (- (2 * z) * ftab LeP (S k) 1 z + (1 - z ^ 2) * ftab LeP (S k) 2 z)).
    { apply (is_derive_mult (fun t => 1 - t ^ 2)).
      - auto_derive; [exact I|ring].
      - apply tab_deriv.
      - intros; apply Rmult_comm. }
    assert (D2 : is_derive (fun t => (INR k + 1) * (ftab LeP k 0 t - t * ftab LeP (S k) 0 t)) z
               ((INR k + 1) * (ftab LeP k 1 z - (1 * ftab LeP (S k) 0 z + z * ftab LeP (S k) 1 z)))).
    { apply (is_derive_scal (fun t => ftab LeP k 0 t - t * ftab LeP (S k) 0 t)).
      apply (is_derive_minus (fun t => ftab LeP k 0 t)); [apply tab_deriv|].
      apply (is_derive_mult (fun t : R => t) (fun t => ftab LeP (S k) 0 t) z 1);
        [apply (is_derive_id (K:=R_AbsRing))|apply tab_deriv|intros; apply Rmult_comm]. }
    apply is_derive_ext with (g := fun t => (INR k + 1) * (ftab LeP k 0 t - t * ftab LeP (S k) 0 t)) in D1;
      [|intros; apply Hc].
    pose proof (eq_trans (eq_sym (is_derive_unique _ _ _ D2)) (is_derive_unique _ _ _ D1)) as U1.
    destruct (leg_rels z k) as [A B]. rewrite S_INR.
    set (a := ftab LeP (S k) 1 z) in *. set (b := ftab LeP (S k) 0 z) in *.
    set (c := ftab LeP k 0 z) in *. set (e := ftab LeP k 1 z) in *. set (h := ftab LeP (S k) 2 z) in *.
    clearbody a b c e h. assert (He : e = z * a - (INR k + 1) * b) by lra. rewrite He in U1. nra.
Qed.

Lemma leg_one k : ftab LeP k 0 1 = 1.
Proof.
  enough (ftab LeP k 0 1 = 1 /\ ftab LeP (S k) 0 1 = 1) by tauto.
  induction k as [|k [IH0 IH1]].
  - unfold ftab. rewrite tab_0, tab_1. cbn. split; [reflexivity|field].
  - split; [exact IH1|]. rewrite tab_step0, IH0, IH1. unfold ca, cb, cc. field. apply INR_p1.
Qed.

Lemma leg_parity k z : ftab LeP k 0 (- z) = (-1) ^ k * ftab LeP k 0 z.
Proof.
  enough (ftab LeP k 0 (- z) = (-1) ^ k * ftab LeP k 0 z /\
          ftab LeP (S k) 0 (- z) = (-1) ^ (S k) * ftab LeP (S k) 0 z) by tauto.
  induction k as [|k [IH0 IH1]].
  - unfold ftab. rewrite !tab_0, !tab_1. cbn. split; field.
  - split; [exact IH1|]. rewrite !tab_step0, IH0, IH1. unfold cb. cbn [pow]. ring.
Qed.

(** ** Laguerre *)
Definition lagc (k i : nat) : R := if (i <=? k)%nat then Binomial.C k i * (-1) ^ i / INR (fact i) else 0.

Lemma C_pascal n i : (i < n)%nat -> Binomial.C (S n) (S i) = Binomial.C n i + Binomial.C n (S i).
Proof. intros H. symmetry. apply pascal, H. Qed.
Lemma C_n_n n : Binomial.C n n = 1.
Proof. unfold Binomial.C. rewrite Nat.sub_diag. cbn [fact INR]. field. apply INR_fact_neq_0. Qed.
Lemma C_n_0 n : Binomial.C n 0 = 1.
Proof. unfold Binomial.C. rewrite Nat.sub_0_r. cbn [fact INR]. field. apply INR_fact_neq_0. Qed.

Lemma lagc_rec k i : INR (S (S k)) * lagc (S (S k)) (S i) =
  (2 * INR (S k) + 1) * lagc (S k) (S i) - lagc (S k) i - INR (S k) * lagc k (S i).
Proof.
  unfold lagc.
  assert (Hf : INR (fact (S i)) = (INR i + 1) * INR (fact i)).
  { rewrite fact_simpl, mult_INR, S_INR. reflexivity. }
  assert (Hfi := INR_fact_neq_0 i). assert (Hi := INR_p1 i).
  destruct (Nat.leb_spec (S i) k) as [H|H].
  - (* i + 1 <= k *)
    destruct (Nat.leb_spec (S i) (S (S k))); [|lia]. destruct (Nat.leb_spec (S i) (S k)); [|lia].
    destruct (Nat.leb_spec i (S k)); [|lia].
    rewrite Hf. unfold Binomial.C.
    destruct (Nat.le_exists_sub (S i) k H) as (q & -> & _).
    replace (S (S (q + S i)) - S i)%nat with (S (S q)) by lia.
    replace (S (q + S i) - S i)%nat with (S q) by lia.
    replace (S (q + S i) - i)%nat with (S (S q)) by lia.
    replace (q + S i - S i)%nat with q by lia.
    rewrite !(fact_simpl (S (q + S i))), !(fact_simpl (q + S i)), !(fact_simpl (S q)), !(fact_simpl q), !mult_INR, Hf.
    rewrite !S_INR, !plus_INR, !S_INR.
    assert (INR (fact q) <> 0) by apply INR_fact_neq_0. assert (INR (fact (q + S i)) <> 0) by apply INR_fact_neq_0.
    pose proof (pos_INR q). pose proof (pos_INR i). cbn [pow]. field. repeat split; lra || assumption.
  - destruct (Nat.eq_dec i k) as [->|Hne].
    + destruct (Nat.leb_spec (S k) (S (S k))); [|lia]. destruct (Nat.leb_spec (S k) (S k)); [|lia].
      destruct (Nat.leb_spec k (S k)); [|lia]. rewrite Hf, C_n_n. unfold Binomial.C.
      replace (S (S k) - S k)%nat with 1%nat by lia. replace (S k - k)%nat with 1%nat by lia.
      rewrite !(fact_simpl (S k)), !(fact_simpl k), !mult_INR, !S_INR. cbn [pow]. change (INR (fact 1)) with 1.
      assert (INR (fact k) <> 0) by apply INR_fact_neq_0. pose proof (pos_INR k). field. repeat split; lra.
    + destruct (Nat.eq_dec i (S k)) as [->|Hne'].
      * rewrite Nat.leb_refl. destruct (Nat.leb_spec (S (S k)) (S k)); [lia|]. rewrite Nat.leb_refl.
        rewrite !C_n_n. rewrite Hf. rewrite !S_INR. cbn [pow].
        pose proof (pos_INR k). rewrite S_INR in Hf, Hi. field. repeat split; lra || assumption.
      * destruct (Nat.leb_spec (S i) (S (S k))); [lia|]. destruct (Nat.leb_spec (S i) (S k)); [lia|].
        destruct (Nat.leb_spec i (S k)); [lia|]. ring.
Qed.

Lemma lagc_0 k : lagc k 0 = 1.
Proof. unfold lagc. cbn [Nat.leb]. rewrite C_n_0. cbn [pow fact INR]. field. Qed.

Definition lagsum (k N : nat) (z : R) : R := sum_f_R0 (fun i => lagc k i * z ^ i) N.

Lemma lagsum_rec k N z : INR (S (S k)) * lagsum (S (S k)) (S N) z =
  (2 * INR (S k) + 1) * lagsum (S k) (S N) z - z * lagsum (S k) N z - INR (S k) * lagsum k (S N) z.
Proof.
  unfold lagsum. induction N as [|N IH].
  - cbn [sum_f_R0]. pose proof (lagc_rec k 0) as H. rewrite !lagc_0 in *. cbn [pow].
    rewrite (S_INR (S k)) in H |- *.
    set (a := lagc (S (S k)) 1) in *. set (b := lagc (S k) 1) in *. set (c := lagc k 1) in *.
    replace ((INR (S k) + 1) * (1 * 1 + a * (z * 1))) with ((INR (S k) + 1) + ((INR (S k) + 1) * a) * z) by ring.
    rewrite H. ring.
  - rewrite (tech5 _ (S N)), (tech5 _ (S N)), (tech5 _ (S N)). rewrite Rmult_plus_distr_l, IH.
    rewrite (tech5 (fun i => lagc (S k) i * z ^ i) N).
    replace (INR (S (S k)) * (lagc (S (S k)) (S (S N)) * z ^ S (S N)))
      with ((INR (S (S k)) * lagc (S (S k)) (S (S N))) * z ^ S (S N)) by ring.
    rewrite lagc_rec. cbn [pow]. ring.
Qed.

Lemma lagsum_trim k N z : (k <= N)%nat -> lagsum k N z = lagsum k k z.
Proof.
  intros H. induction H as [|N H IH]; [reflexivity|].
  unfold lagsum in *. rewrite tech5, IH. unfold lagc at 2.
  destruct (Nat.leb_spec (S N) k); [lia|]. ring.
Qed.

Lemma lag_closed k z : ftab LaP k 0 z = lagsum k k z.
Proof.
  enough (ftab LaP k 0 z = lagsum k k z /\ ftab LaP (S k) 0 z = lagsum (S k) (S k) z) by tauto.
  induction k as [|k [IH0 IH1]].
  - unfold ftab. rewrite tab_0, tab_1. unfold lagsum. cbn [sum_f_R0 pow]. rewrite !lagc_0. unfold lagc.
    cbn [Nat.leb]. rewrite C_n_n. cbn. split; field.
  - split; [exact IH1|]. rewrite tab_step0, IH0, IH1. unfold ca, cb, cc.
    pose proof (lagsum_rec k (S k) z) as H. rewrite (lagsum_trim k (S (S k))) in H by lia.
    rewrite (lagsum_trim (S k) (S (S k))) in H by lia.
    rewrite (S_INR (S k)) in H. pose proof (INR_p1 (S k)) as Hp.
    apply Rmult_eq_reg_l with (INR (S k) + 1); [|exact Hp]. rewrite H. field. exact Hp.
Qed.

Lemma lag_spec k z : ftab LaP k 0 z = sum_f_R0 (fun i => Binomial.C k i * (-1) ^ i * z ^ i / INR (fact i)) k.
Proof.
  rewrite lag_closed. unfold lagsum. apply sum_eq. intros i Hi. unfold lagc.
  destruct (Nat.leb_spec i k); [|lia]. field. apply INR_fact_neq_0.
Qed.

(** ** Hermite *)
Lemma hpro_deriv k z : ftab HoPpro (S k) 1 z = (INR k + 1) * ftab HoPpro k 0 z.
Proof.
  enough (ftab HoPpro (S k) 1 z = (INR k + 1) * ftab HoPpro k 0 z /\
          ftab HoPpro (S (S k)) 1 z = (INR (S k) + 1) * ftab HoPpro (S k) 0 z) by tauto.
  induction k as [|k [IH0 IH1]].
  - rewrite tab_step1. unfold ftab. rewrite !tab_0, !tab_1. cbn. split; ring.
  - split; [exact IH1|]. rewrite tab_step1, IH1, IH0. rewrite (tab_step0 HoPpro k). unfold ca, cb, cc.
    rewrite !S_INR. ring.
Qed.
Lemma hpro_next k z : ftab HoPpro (S k) 0 z = z * ftab HoPpro k 0 z - ftab HoPpro k 1 z.
Proof.
  destruct k as [|k].
  - unfold ftab. rewrite !tab_0, !tab_1. cbn. ring.
  - rewrite tab_step0, hpro_deriv. unfold ca, cb, cc. rewrite S_INR. ring.
Qed.
Lemma hpro_rodrigues k z :
  is_derive_n (fun t => exp (- t ^ 2 / 2)) k z ((-1) ^ k * ftab HoPpro k 0 z * exp (- z ^ 2 / 2)).
Proof.
  apply (is_derive_n_ext (fun t => (-1) ^ 0 * ftab HoPpro 0 0 t * exp (- t ^ 2 / 2))).
  { intros t. unfold ftab; rewrite tab_0. ring. }
  revert z. apply (is_derive_n_chain (fun k t => (-1) ^ k * ftab HoPpro k 0 t * exp (- t ^ 2 / 2))).
  clear k. intros k z. rewrite hpro_next.
  assert (He : is_derive (fun t => exp (- t ^ 2 / 2)) z (- z * exp (- z ^ 2 / 2))).
  { auto_derive; [exact I|]. replace (- (z * (z * 1)) * / 2) with (- z ^ 2 / 2) by (cbn [pow]; field). field. }
  assert (Hp : is_derive (fun t => (-1) ^ k * ftab HoPpro k 0 t) z ((-1) ^ k * ftab HoPpro k 1 z)).
  { apply (is_derive_scal (fun t => ftab HoPpro k 0 t)). apply tab_deriv. }
  pose proof (is_derive_mult _ _ _ _ _ Hp He Rmult_comm) as H.
  refine (eq_ind _ (fun v => is_derive _ z v) H _ _). unfold plus, mult; cbn. ring.
Qed.

Lemma hphy_deriv k z : ftab HoPphy (S k) 1 z = 2 * (INR k + 1) * ftab HoPphy k 0 z.
Proof.
  enough (ftab HoPphy (S k) 1 z = 2 * (INR k + 1) * ftab HoPphy k 0 z /\
          ftab HoPphy (S (S k)) 1 z = 2 * (INR (S k) + 1) * ftab HoPphy (S k) 0 z) by tauto.
  induction k as [|k [IH0 IH1]].
  - rewrite tab_step1. unfold ftab. rewrite !tab_0, !tab_1. cbn. split; ring.
  - split; [exact IH1|]. rewrite tab_step1, IH1, IH0. rewrite (tab_step0 HoPphy k). unfold ca, cb, cc.
    rewrite !S_INR. ring.
Qed.
Lemma hphy_next k z : ftab HoPphy (S k) 0 z = 2 * z * ftab HoPphy k 0 z - ftab HoPphy k 1 z.
Proof.
  destruct k as [|k].
  - unfold ftab. rewrite !tab_0, !tab_1. cbn. ring.
  - rewrite tab_step0, hphy_deriv. unfold ca, cb, cc. rewrite S_INR. ring.
Qed.
Lemma hphy_rodrigues k z :
  is_derive_n (fun t => exp (- t ^ 2)) k z ((-1) ^ k * ftab HoPphy k 0 z * exp (- z ^ 2)).
Proof.
  apply (is_derive_n_ext (fun t => (-1) ^ 0 * ftab HoPphy 0 0 t * exp (- t ^ 2))).
  { intros t. unfold ftab; rewrite tab_0. ring. }
  revert z. apply (is_derive_n_chain (fun k t => (-1) ^ k * ftab HoPphy k 0 t * exp (- t ^ 2))).
  clear k. intros k z. rewrite hphy_next.
  assert (He : is_derive (fun t => exp (- t ^ 2)) z (- (2 * z) * exp (- z ^ 2))).
  { auto_derive; [exact I|]. cbn [pow]. ring. }
  assert (Hp : is_derive (fun t => (-1) ^ k * ftab HoPphy k 0 t) z ((-1) ^ k * ftab HoPphy k 1 z)).
  { apply (is_derive_scal (fun t => ftab HoPphy k 0 t)). apply tab_deriv. }
  pose proof (is_derive_mult _ _ _ _ _ Hp He Rmult_comm) as H.
  refine (eq_ind _ (fun v => is_derive _ z v) H _ _). unfold plus, mult; cbn. ring.
Qed.
