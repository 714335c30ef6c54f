(** Proofs of the properties stated in PropBasis.v. *)
From Coq Require Import Reals Arith Lia Lra List Bool ZArith QArith.
From Coquelicot Require Import Coquelicot.
From Verif Require Import Base ProofBase Numbers ModelBFPy ModelBFCpp ProofTab ProofBFPy ProofBFCpp SpecBasis ProofH ProofPoly.
Import ListNotations.
Open Scope R_scope.

Lemma c01 be x0 xf nC m xs j k x theta : x0 <> xf -> (k < m)%nat -> nth_error xs j = Some x ->
  zmap CP x0 xf x = cos theta -> entry_is be CP x0 xf nC m xs 0 j k (cos (INR k * theta)).
Proof.
  intros Hx Hk Hj Hz. pose proof (entry_col be CP x0 xf nC m xs j k x Hx Hk Hj) as H.
  cbn [col] in H. rewrite Hz, cheb_cos in H. exact H.
Qed.

Lemma c02 be k : exists y y' : R -> R,
  (forall z, is_derive y z (y' z)) /\
  (forall z, is_derive (fun t => (1 - t ^ 2) * y' t) z (- (INR k * (INR k + 1) * y z))) /\
  y 1 = 1 /\ (forall z, y (- z) = (-1) ^ k * y z) /\
  forall x0 xf nC m xs j x, x0 <> xf -> (k < m)%nat -> nth_error xs j = Some x ->
    entry_is be LeP x0 xf nC m xs 0 j k (y (zmap LeP x0 xf x)).
Proof.
  exists (ftab LeP k 0), (ftab LeP k 1). split; [intros; apply tab_deriv|]. split; [|split; [|split]].
  - intros z.
    assert (D1 : is_derive (fun t => (1 - t ^ 2) * ftab LeP k 1 t) z
               (- (2 * z) * ftab LeP k 1 z + (1 - z ^ 2) * ftab LeP k 2 z)).
    { apply (is_derive_mult (fun t => 1 - t ^ 2)).
      - auto_derive; [exact I|ring].
      - apply tab_deriv.
      - intros; apply Rmult_comm. }
    refine (eq_ind _ (fun v => is_derive _ z v) D1 _ _). pose proof (leg_ode k z). lra.
  - apply leg_one.
  - intros z. apply leg_parity.
  - intros x0 xf nC m xs j x Hx Hk Hj. apply (entry_col be LeP x0 xf nC m xs j k x Hx Hk Hj).
Qed.

Lemma c03 be x0 xf nC m xs j k x : x0 <> xf -> (k < m)%nat -> nth_error xs j = Some x ->
  entry_is be LaP x0 xf nC m xs 0 j k
    (sum_f_R0 (fun i => Binomial.C k i * (-1) ^ i * x ^ i / INR (fact i)) k).
Proof.
  intros Hx Hk Hj. rewrite <- lag_spec. apply (entry_col be LaP x0 xf nC m xs j k x Hx Hk Hj).
Qed.

Lemma rodrigues (w : R -> R) k x s h : is_derive_n w k x (s * h * w x) -> s * s = 1 -> w x <> 0 ->
  h = s / w x * Derive_n w k x.
Proof.
  intros H Hs Hw. rewrite (is_derive_n_unique _ _ _ _ H).
  replace (s / w x * (s * h * w x)) with ((s * s) * h) by (field; exact Hw). rewrite Hs. ring.
Qed.
Lemma sign_sq k : (-1) ^ k * (-1) ^ k = 1.
Proof. rewrite <- Rpow_mult_distr. replace (-1 * -1) with 1 by ring. apply pow1. Qed.

Lemma c04 be x0 xf nC m xs j k x : x0 <> xf -> (k < m)%nat -> nth_error xs j = Some x ->
  let w := fun t => exp (- t ^ 2 / 2) in
  ex_derive_n w k x /\
  entry_is be HoPpro x0 xf nC m xs 0 j k ((-1) ^ k * exp (x ^ 2 / 2) * Derive_n w k x).
Proof.
  intros Hx Hk Hj w. pose proof (hpro_rodrigues k x) as H. split.
  - destruct k; [exact I|]. exists ((-1) ^ S k * ftab HoPpro (S k) 0 x * exp (- x ^ 2 / 2)). exact H.
  - pose proof (rodrigues w k x ((-1) ^ k) _ H (sign_sq k) (Rgt_not_eq _ _ (exp_pos _))) as E.
    assert (Hw : / w x = exp (x ^ 2 / 2)).
    { unfold w. rewrite <- exp_Ropp. f_equal. field. }
    unfold Rdiv in E at 1. rewrite Hw in E. rewrite <- E.
    apply (entry_col be HoPpro x0 xf nC m xs j k x Hx Hk Hj).
Qed.

Lemma c05 be x0 xf nC m xs j k x : x0 <> xf -> (k < m)%nat -> nth_error xs j = Some x ->
  let w := fun t => exp (- t ^ 2) in
  ex_derive_n w k x /\
  entry_is be HoPphy x0 xf nC m xs 0 j k ((-1) ^ k * exp (x ^ 2) * Derive_n w k x).
Proof.
  intros Hx Hk Hj w. pose proof (hphy_rodrigues k x) as H. split.
  - destruct k; [exact I|]. exists ((-1) ^ S k * ftab HoPphy (S k) 0 x * exp (- x ^ 2)). exact H.
  - pose proof (rodrigues w k x ((-1) ^ k) _ H (sign_sq k) (Rgt_not_eq _ _ (exp_pos _))) as E.
    assert (Hw : / w x = exp (x ^ 2)).
    { unfold w. rewrite <- exp_Ropp. f_equal. ring. }
    unfold Rdiv in E at 1. rewrite Hw in E. rewrite <- E.
    apply (entry_col be HoPphy x0 xf nC m xs j k x Hx Hk Hj).
Qed.

Lemma fscol_sin g z : fscol (2 * S g - 1) 0 z = sin (INR (S g) * z).
Proof.
  replace (2 * S g - 1)%nat with (S (2 * g)) by lia. unfold fscol.
  replace ((S (2 * g) + 1) / 2)%nat with (S g).
  2:{ replace (S (2 * g) + 1)%nat with (S g * 2)%nat by lia. rewrite Nat.div_mul by lia. reflexivity. }
  replace (S (2 * g) mod 2)%nat with 1%nat.
  2:{ replace (S (2 * g)) with (1 + g * 2)%nat by lia. rewrite Nat.mod_add by lia. reflexivity. }
  change (0 mod 4)%nat with 0%nat. cbv iota. cbn [Nat.eqb pow]. ring.
Qed.
Lemma fscol_cos g z : fscol (2 * S g) 0 z = cos (INR (S g) * z).
Proof.
  replace (2 * S g)%nat with (S (S (2 * g))) by lia. unfold fscol.
  replace ((S (S (2 * g)) + 1) / 2)%nat with (S g).
  2:{ replace (S (S (2 * g)) + 1)%nat with (1 + S g * 2)%nat by lia. rewrite Nat.div_add by lia. reflexivity. }
  replace (S (S (2 * g)) mod 2)%nat with 0%nat.
  2:{ replace (S (S (2 * g))) with (0 + S g * 2)%nat by lia. rewrite Nat.mod_add by lia. reflexivity. }
  change (0 mod 4)%nat with 0%nat. cbv iota. cbn [Nat.eqb pow]. ring.
Qed.

Lemma c06 be x0 xf nC m xs j x : x0 <> xf -> nth_error xs j = Some x ->
  let z := zmap FS x0 xf x in
  ((0 < m)%nat -> entry_is be FS x0 xf nC m xs 0 j 0 1) /\
  (forall g, (2 * S g - 1 < m)%nat -> entry_is be FS x0 xf nC m xs 0 j (2 * S g - 1) (sin (INR (S g) * z))) /\
  (forall g, (2 * S g < m)%nat -> entry_is be FS x0 xf nC m xs 0 j (2 * S g) (cos (INR (S g) * z))).
Proof.
  intros Hx Hj z. split; [|split].
  - intros Hm. apply (entry_col be FS x0 xf nC m xs j 0 x Hx Hm Hj).
  - intros g Hg. rewrite <- fscol_sin. apply (entry_col be FS x0 xf nC m xs j _ x Hx Hg Hj).
  - intros g Hg. rewrite <- fscol_cos. apply (entry_col be FS x0 xf nC m xs j _ x Hx Hg Hj).
Qed.

Lemma fscol_period k z : fscol k 0 (z + 2 * PI) = fscol k 0 z.
Proof.
  destruct k as [|k]; [reflexivity|]. unfold fscol. set (q := ((S k + 1) / 2)%nat). clearbody q.
  change (0 mod 4)%nat with 0%nat. cbv iota.
  replace (INR q * (z + 2 * PI)) with (INR q * z + 2 * INR q * PI) by ring.
  rewrite cos_period, sin_period. reflexivity.
Qed.

Lemma c06_periodic be x0 xf nC m k x : x0 <> xf -> (k < m)%nat ->
  exists v, entry_is be FS x0 xf nC m [x] 0 0 k v /\ entry_is be FS x0 xf nC m [x + (xf - x0)] 0 0 k v.
Proof.
  intros Hx Hk. exists (fscol k 0 (zmap FS x0 xf x)). split.
  - apply (entry_col be FS x0 xf nC m [x] 0 k x Hx Hk eq_refl).
  - pose proof (entry_col be FS x0 xf nC m [x + (xf - x0)] 0 k _ Hx Hk eq_refl) as H.
    replace (zmap FS x0 xf (x + (xf - x0))) with (zmap FS x0 xf x + 2 * PI) in H by (unfold zmap; field; lra).
    cbn [col] in H. rewrite fscol_period in H. exact H.
Qed.

(** ** compiled entry point *)
Lemma c15 f x0 xf nC m xs d full out M : (1 <= m)%nat -> valid_nC nC m ->
  H1 Cpp f x0 xf nC m xs d full = Some M -> blen out = (mr M * mc M)%nat ->
  exists b, cpp_xla ROps RFun f (fam_init ROps RFun f x0 xf nC m) (bof xs) d full (mr M) (mc M) out = Some b
    /\ buf_matrix b (mr M) (mc M) = Some (md M).
Proof.
  intros Hm Hv HM Hout.
  set (B := fam_init ROps RFun f x0 xf nC m) in *.
  assert (HB : b_m B = m) by apply fam_init_m. assert (HnC : b_nC B = nC) by apply fam_init_nC.
  unfold cpp_xla, cpp_xla_with. rewrite HB, HnC.
  destruct (cpp_map_points_ok B (bof xs) _ _ (pts_bof xs)) as (z & Ez & Hz).
  destruct (cpp_hint_ok f m Hm d z _ (length xs) (bnew (length xs * m)) Hz) as (dk & Ed & Hd); [cbn; lia|].
  destruct full.
  - rewrite H1_full in HM by exact Hm. apply some_inj in HM. fold B in HM. subst M.
    unfold full_mat in *; cbn [mr mc md] in *. rewrite HB in Hout |- *. rewrite Ez; cbn [bind]. rewrite Ed; cbn [bind].
    edestruct (cpp_emit_full nC m (length xs) m (opow ROps (b_c B) d) dk out _ Hd) as (F & EF & HF); [rewrite Hout; lia|].
    exists F. split; [exact EF|]. rewrite (buf_matrix_bmat F (length xs) m _ (cols_bmat _ _ _ _ HF)).
    f_equal. rewrite opow_R.
    rewrite <- (rows_of_points (fun x => map (fun k => col f k d ((x - b_x0 B) * b_c B + b_z0 B) * b_c B ^ d) (seq 0 m))).
    reflexivity.
  - rewrite H1_part in HM by assumption. apply some_inj in HM. fold B in HM. subst M.
    unfold part_mat in *; cbn [mr mc md] in *. rewrite HB, HnC in Hout |- *. rewrite Ez; cbn [bind]. rewrite Ed; cbn [bind].
    edestruct (cpp_emit_part nC m (length xs) (opow ROps (b_c B) d) dk out _ Hv Hd) as (F & EF & HF); [rewrite Hout; lia|].
    exists F. split; [exact EF|]. rewrite (buf_matrix_bmat F (length xs) _ _ (cols_bmat _ _ _ _ HF)).
    f_equal. rewrite opow_R.
    rewrite <- (rows_of_points (fun x => map (fun k => col f k d ((x - b_x0 B) * b_c B + b_z0 B) * b_c B ^ d) (keptc nC m))).
    apply map_ext. intros j.
    apply (map_seq_nth (fun k => col f k d ((nth j xs 0 - b_x0 B) * b_c B + b_z0 B) * b_c B ^ d) (keptc nC m) 0%nat).
Qed.

(** ** domain map *)
Lemma entry_d be f x0 xf nC m xs d j k x : x0 <> xf -> (k < m)%nat -> nth_error xs j = Some x ->
  entry_is be f x0 xf nC m xs d j k (col f k d (zmap f x0 xf x) * b_c (fam_init ROps RFun f x0 xf nC m) ^ d).
Proof.
  intros Hx Hk Hj. eexists. split; [apply H1_full; lia|].
  rewrite full_mat_ent, Hj, fam_init_m. destruct (Nat.ltb_spec k m); [|lia].
  rewrite zmap_ok by exact Hx. reflexivity.
Qed.

Lemma zlo_zhi f : zlo f <> zhi f.
Proof. pose proof PI_RGT_0. destruct f; cbn; lra. Qed.
Lemma zmap_id f z : bounded f -> zmap f (zlo f) (zhi f) z = z.
Proof. pose proof PI_RGT_0. intros [-> | [-> | ->]]; cbn; field; lra. Qed.

Lemma c17_eval be f x0 xf nC m xs : bounded f -> (1 <= m)%nat -> x0 <> xf ->
  exists M, H1 be f x0 xf nC m xs 0 true = Some M /\
    H1 be f (zlo f) (zhi f) nC m (map (zmap f x0 xf) xs) 0 true = Some M.
Proof.
  intros Hb Hm Hx. eexists. split; [apply H1_full, Hm|]. rewrite H1_full by exact Hm. f_equal.
  unfold full_mat. rewrite map_length, !fam_init_m, map_map. f_equal. apply map_ext. intros x.
  apply map_ext. intros k. rewrite !zmap_ok by (exact Hx || apply zlo_zhi).
  rewrite zmap_id by exact Hb. reflexivity.
Qed.
Lemma c17_map f x0 xf : bounded f -> x0 < xf ->
  zmap f x0 xf x0 = zlo f /\ zmap f x0 xf xf = zhi f /\
  forall x y, x0 <= x -> x < y -> y <= xf ->
    zlo f <= zmap f x0 xf x /\ zmap f x0 xf x < zmap f x0 xf y /\ zmap f x0 xf y <= zhi f.
Proof.
  intros Hb Hx. pose proof PI_RGT_0 as HP.
  assert (Hi : 0 < / (xf - x0)) by (apply Rinv_0_lt_compat; lra).
  assert (Hd : (xf - x0) * / (xf - x0) = 1) by (apply Rinv_r; lra).
  set (i := / (xf - x0)) in *.
  assert (Hmon : forall x y, x < y -> (x - x0) * i < (y - x0) * i) by (intros; nra).
  assert (Hlo : forall x, x0 <= x -> 0 <= (x - x0) * i) by (intros; nra).
  assert (Hhi : forall x, x <= xf -> (x - x0) * i <= 1) by (intros; nra).
  destruct Hb as [-> | [-> | ->]]; cbn [zmap zlo zhi]; unfold Rdiv; fold i; repeat split;
    try (rewrite Rminus_diag_eq by reflexivity; ring);
    try (rewrite Hd; ring);
    match goal with
    | H1 : x0 <= ?x, H2 : ?x < ?y, H3 : ?y <= xf |- _ =>
       pose proof (Hmon x y H2); pose proof (Hlo x H1); pose proof (Hhi y H3); nra
    end.
Qed.

(** repeated entries in nC make the C++ code write outside its output block *)
Lemma c13_dup f x0 xf x : (f <> FS) ->
  (exists M, H1 Py f x0 xf [0; 0]%Z 2 [x] 0 false = Some M /\ shaped M 1 1) /\
  H1 Cpp f x0 xf [0; 0]%Z 2 [x] 0 false = None.
Proof.
  intros Hf. split.
  - assert (Hp : H1 Py f x0 xf [0; 0]%Z 2 [x] 0 false =
      Some (part_mat (fam_init ROps RFun f x0 xf [0; 0]%Z 2) (col f) [x] 0)).
    { cbn [H1]. apply py_H_part; rewrite fam_init_m; [apply py_hint_ok; lia|].
      rewrite fam_init_nC. intros i [<-|[<-|[]]]; lia. }
    eexists. split; [exact Hp|]. repeat split; cbn [mr mc md part_mat];
      rewrite ?fam_init_m, ?fam_init_nC; try reflexivity.
    intros row Hr. apply in_map_iff in Hr as (y & <- & _). rewrite map_length. reflexivity.
  - cbn [H1]. destruct f; try congruence; reflexivity.
Qed.
