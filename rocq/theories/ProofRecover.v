(** Rows of the basis matrix as functions of the point (C74). *)
From Coq Require Import Reals Arith Lia Lra List Bool ZArith.
From Coquelicot Require Import Coquelicot.
From Verif Require Import Base ProofBase Numbers ModelBFPy ModelBFCpp ProofTab ProofBFPy ProofBFCpp SpecBasis ProofH ProofPoly
  ModelELM SpecELM ProofELM ModelUtfc SpecUtfc ProofUtfc ProofIndep SpecColl ProofColl.
Import ListNotations.
Open Scope R_scope.

Lemma deriv_row_comb (g : nat -> nat -> R -> R) ks : (forall k e x, In k ks -> is_derive (g k e) x (g k (S e) x)) ->
  forall a e x, is_derive (fun t => row_comb a (map (fun k => g k e t) ks)) x (row_comb a (map (fun k => g k (S e) x) ks)).
Proof.
  induction ks as [|k ks IH]; intros Hg a e x; cbn [map row_comb].
  - apply is_derive_Reals, derivable_pt_lim_const.
  - apply (is_derive_plus (fun t => a 0%nat * g k e t) (fun t => row_comb (fun i => a (S i)) (map (fun k => g k e t) ks))).
    + apply (is_derive_scal (g k e) x (a 0%nat)). apply Hg. left; reflexivity.
    + apply (IH (fun k e x H => Hg k e x (or_intror H)) (fun i => a (S i))).
Qed.

Section Rows.
Context (jvp : (R -> R) -> R -> R -> R) (Hj : jvp_ok jvp).
Local Notation uH := (utfc_H ROps RFun jvp).

Lemma rows be f N d deg x0 xf w b u (q : list R) : mk be (UB f) N (NcInt (Z.of_nat d)) deg x0 xf w b = Some u -> f <> FS ->
  (2 <= N)%nat -> x0 < xf -> (deg + 1 - d <= N)%nat -> (length q <= deg + 1 - d)%nat ->
  exists h : nat -> R -> list R,
    (forall xs e, uH u xs e false = Some (Mat (length xs) (deg + 1 - d) (map (h e) xs))) /\
    (forall e x, length (h e x) = (deg + 1 - d)%nat) /\
    (forall a e x, is_derive (fun t => row_comb a (h e t)) x (row_comb a (h (S e) x))) /\
    (forall a, (forall x, In x (u_x u) -> row_comb a (h d x) = 0) -> forall i, (i < deg + 1 - d)%nat -> a i = 0) /\
    (exists a, forall x, row_comb a (h d x) = poly_at q x) /\ length (u_x u) = N.
Proof.
  intros Hu Hf HN Hx Hle Hq. assert (Hne : x0 <> xf) by lra.
  destruct (mk_inv _ _ _ _ _ _ _ _ _ _ Hu) as (l & z & xs0 & El & Hl & _ & _ & _ & Eu).
  assert (El2 : l = map Z.of_nat (seq 0 d)) by (cbn [utfc_nC] in El; rewrite Nat2Z.id in El; congruence).
  assert (Hd : (d <= deg)%nat) by (rewrite El2, map_length, seq_length in Hl; exact Hl).
  assert (Hv : valid_nC l (S deg)) by (rewrite El2; apply valid_first; lia).
  assert (EB : u_B u = fam_init ROps RFun f x0 xf l (S deg)) by (rewrite Eu; reflexivity).
  assert (Ek : uks u false = seq d (deg + 1 - d)).
  { unfold uks. rewrite EB, fam_init_m, fam_init_nC, El2, keptc_first by lia. f_equal. lia. }
  pose (g := fun k e x => col f k e ((x - b_x0 (u_B u)) * b_c (u_B u) + b_z0 (u_B u)) * b_c (u_B u) ^ e).
  pose (h := fun e x => map (fun k => g k e x) (seq d (deg + 1 - d))).
  assert (HH : forall xs e, uH u xs e false = Some (Mat (length xs) (deg + 1 - d) (map (h e) xs))).
  { intros xs e. rewrite (uH_k jvp Hj _ _ _ _ _ _ _ _ _ _ xs e false Hu I I) by (intros _; rewrite (mk_nC _ _ _ _ _ _ _ _ _ _ _ Hu El); exact Hv).
    unfold kmat. rewrite Ek, seq_length. reflexivity. }
  exists h. split; [exact HH|]. split; [intros; unfold h; rewrite map_length; apply seq_length|].
  split; [|split; [|split]].
  - intros a e x. unfold h.
    apply (deriv_row_comb g). intros k e2 x2 _. unfold g.
    set (c := b_c (u_B u)). set (p := b_x0 (u_B u)). set (z1 := b_z0 (u_B u)). cbn [pow].
    replace (col f k (S e2) ((x2 - p) * c + z1) * (c * c ^ e2)) with (c ^ e2 * (col f k (S e2) ((x2 - p) * c + z1) * c)) by ring.
    apply is_derive_ext with (f := fun t => c ^ e2 * col f k e2 ((t - p) * c + z1)); [intros y; apply Rmult_comm|].
    apply (is_derive_scal (fun t => col f k e2 ((t - p) * c + z1))).
    apply is_derive_affine, col_deriv.
  - destruct (c73_poly jvp Hj be f N _ deg x0 xf w b u l d false (u_x u) Hu Hf Hne El (fun _ => Hv)) as (M & EM & HM).
    + intros k Hk. split; [reflexivity|]. rewrite El2. apply in_map, in_seq. lia.
    + rewrite (c18_points _ _ _ _ _ _ _ _ _ _ HN Hne Hu). replace N with (S (N - 1)) at 2 by lia. apply points_nodup, Hx.
    + rewrite (c18_points _ _ _ _ _ _ _ _ _ _ HN Hne Hu), map_length, seq_length. lia.
    + rewrite HH in EM. apply some_inj in EM. subst M. intros a Ha. apply HM. cbn [md]. intros row Hrow.
      apply in_map_iff in Hrow as (x & <- & Hxin). apply Ha, Hxin.
  - assert (Hg : graded (fun i x => ftab f (d + i) d (slope f x0 xf * x + offset f x0 xf)))
      by (apply cols_graded; [exact Hf|apply slope_nz; assumption]).
    assert (Hc : b_c (u_B u) ^ d <> 0) by (apply pow_nonzero; rewrite EB; apply b_c_nz; assumption).
    destruct (graded_span _ Hg (deg + 1 - d) (pscale (/ b_c (u_B u) ^ d) q)) as (a & Ha); [rewrite pscale_length; exact Hq|].
    exists a. intros x. unfold h. rewrite row_comb_seq. rewrite poly_at_peval.
    replace (peval q x) with (b_c (u_B u) ^ d * peval (pscale (/ b_c (u_B u) ^ d) q) x) by (rewrite peval_pscale; field; exact Hc).
    rewrite <- Ha. generalize (deg + 1 - d)%nat as n. induction n as [|n IH]; cbn [comb]; [ring|].
    rewrite IH. unfold g. rewrite EB at 2 3 4. rewrite zmap_ok, zmap_affine by assumption.
    assert (Ec : forall z, col f (d + n) d z = ftab f (d + n) d z) by (intros; destruct f; try reflexivity; congruence).
    rewrite Ec. ring.
  - rewrite (c18_points _ _ _ _ _ _ _ _ _ _ HN Hne Hu), map_length, seq_length. reflexivity.
Qed.
End Rows.

(** ** adding a Taylor polynomial *)
Definition tay (x0 : R) (k e : nat) (t : R) : R :=
  if (e <=? k)%nat then (t - x0) ^ (k - e) / INR (fact (k - e)) else 0.
Lemma tay_deriv x0 k e t : is_derive (tay x0 k e) t (tay x0 k (S e) t).
Proof.
  unfold tay. destruct (Nat.leb_spec e k) as [H|H].
  - destruct (Nat.leb_spec (S e) k) as [H'|H'].
    + replace (k - e)%nat with (S (k - S e)) by lia. set (j := (k - S e)%nat).
      assert (INR (fact (S j)) <> 0) by apply INR_fact_neq_0. assert (INR (fact j) <> 0) by apply INR_fact_neq_0.
      assert (D : is_derive (fun s => (s - x0) ^ S j) t (INR (S j) * 1 * (t - x0) ^ pred (S j))).
      { apply (is_derive_pow (fun s => s - x0)). replace 1 with (1 - 0) by ring.
        apply is_derive_Reals, (derivable_pt_lim_minus (fun s => s) (fun _ => x0)); [apply derivable_pt_lim_id|apply derivable_pt_lim_const]. }
      apply (is_derive_scal _ _ (/ INR (fact (S j)))) in D.
      replace ((t - x0) ^ j / INR (fact j)) with (/ INR (fact (S j)) * (INR (S j) * 1 * (t - x0) ^ pred (S j))).
      * apply is_derive_ext with (f := fun s => / INR (fact (S j)) * (s - x0) ^ S j); [intros s; apply Rmult_comm|exact D].
      * cbn [pred]. assert (INR (S j) <> 0) by (apply not_0_INR; lia). rewrite fact_simpl, mult_INR. field. split; assumption.
    + replace (k - e)%nat with 0%nat by lia. cbn [pow]. apply (is_derive_const (1 / INR (fact 0))).
  - destruct (Nat.leb_spec (S e) k); [lia|]. apply is_derive_Reals. apply derivable_pt_lim_const.
Qed.
Lemma tay_at x0 k e : tay x0 k e x0 = if (e =? k)%nat then 1 else 0.
Proof.
  unfold tay. replace (x0 - x0) with 0 by ring. destruct (Nat.leb_spec e k), (Nat.eqb_spec e k); try lia; try reflexivity.
  - subst. rewrite Nat.sub_diag. cbn. field.
  - rewrite pow_ne_zero by lia. unfold Rdiv. ring.
Qed.
Lemma taylor_comb x0 v d t : taylor x0 v d t = comb v (fun k => (t - x0) ^ k / INR (fact k)) d.
Proof. induction d as [|d IH]; cbn [taylor comb]; [reflexivity|]. rewrite IH. reflexivity. Qed.
Lemma add_taylor (yd : nat -> R -> R) x0 v d : (forall e t, is_derive (yd e) t (yd (S e) t)) ->
  let T := fun t => yd 0%nat t + taylor x0 (fun k => v k - yd k x0) d t in
  (forall t, is_derive_n T d t (yd d t)) /\ forall k, (k < d)%nat -> is_derive_n T k x0 (v k).
Proof.
  intros Hd T.
  pose (c := fun k => v k - yd k x0).
  assert (HT : forall e t, is_derive_n T e t (yd e t + comb c (fun k => tay x0 k e t) d)).
  { intros e t. apply is_derive_n_ext with (f := fun t => yd 0%nat t + comb c (fun k => tay x0 k 0 t) d).
    - intros s. unfold T. rewrite taylor_comb. f_equal. apply comb_ext. intros i _. unfold tay. cbn [Nat.leb]. rewrite Nat.sub_0_r. reflexivity.
    - apply (is_derive_n_chain (fun e t => yd e t + comb c (fun k => tay x0 k e t) d)). intros e' s.
      apply (is_derive_plus (yd e') (fun s => comb c (fun k => tay x0 k e' s) d)); [apply Hd|].
      clear. induction d as [|d IH]; cbn [comb]; [apply is_derive_Reals, derivable_pt_lim_const|].
      apply (is_derive_plus (fun s => comb c (fun k => tay x0 k e' s) d) (fun s => c d * tay x0 d e' s)); [exact IH|].
      apply (is_derive_scal (tay x0 d e')), tay_deriv. }
  split.
  - intros t. replace (yd d t) with (yd d t + comb c (fun k => tay x0 k d t) d); [apply HT|].
    rewrite (comb_ext c _ (fun _ => 0)).
    + assert (E : forall q, comb c (fun _ => 0) q = 0) by (induction q; cbn; [reflexivity|lra]). rewrite E. ring.
    + intros i Hi. unfold tay. destruct (Nat.leb_spec d i); [lia|reflexivity].
  - intros k Hk. replace (v k) with (yd k x0 + comb c (fun k' => tay x0 k' k x0) d); [apply HT|].
    rewrite (comb_one 1 (le_n 1) c _ k d Hk).
    + rewrite tay_at, Nat.eqb_refl. unfold c. ring.
    + intros i _ Hne. rewrite tay_at. destruct (Nat.eqb_spec k i); [congruence|reflexivity].
Qed.
