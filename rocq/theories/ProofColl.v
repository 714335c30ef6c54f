(** Basis matrices at the collocation points: independence of the columns (C73). *)
From Coq Require Import Reals Arith Lia Lra List Bool ZArith Sorted.
From Coquelicot Require Import Coquelicot.
From Verif Require Import Base ProofBase Numbers ModelBFPy ModelBFCpp ProofTab ProofBFPy ProofBFCpp SpecBasis ProofH ProofPoly
  ModelELM SpecELM ProofELM ModelUtfc SpecUtfc ProofUtfc ProofIndep SpecColl.
Import ListNotations.
Open Scope R_scope.

(** ** polynomials of increasing degree *)
Definition graded (p : nat -> R -> R) : Prop :=
  forall i, exists l, length l = S i /\ last l 0 <> 0 /\ forall x, p i x = peval l x.

Lemma comb_graded p a q : graded p -> exists l, (length l <= q)%nat /\ forall x, comb a (fun i => p i x) q = peval l x.
Proof.
  intros Hp. induction q as [|q (l & Hl & E)].
  - exists []. split; [cbn; lia|]. reflexivity.
  - destruct (Hp q) as (c & Hc & _ & Ec). exists (padd l (pscale (a q) c)). split.
    + rewrite padd_length, pscale_length. lia.
    + intros x. cbn [comb]. rewrite E, Ec, peval_padd, peval_pscale. ring.
Qed.

Lemma graded_indep p : graded p -> forall a q rs, NoDup rs -> (q <= length rs)%nat ->
  (forall x, In x rs -> comb a (fun i => p i x) q = 0) -> forall i, (i < q)%nat -> a i = 0.
Proof.
  intros Hp a. induction q as [|q IH]; intros rs Hnd Hlen Heq; [lia|].
  assert (Hq : a q = 0).
  { destruct (Req_dec (a q) 0) as [E|Hne]; [exact E|exfalso].
    destruct (comb_graded p a q Hp) as (l & Hl & El). destruct (Hp q) as (c & Lc & Nc & Ec).
    assert (Hroots : (length rs <= q)%nat); [|lia].
    apply (roots q (padd (pscale (a q) c) l)).
    - rewrite padd_length, pscale_length. lia.
    - rewrite last_padd by (rewrite pscale_length; lia).
      rewrite last_pscale. intros E. apply Rmult_integral in E. tauto.
    - exact Hnd.
    - intros x Hx. rewrite peval_padd, peval_pscale, <- El, <- Ec.
      specialize (Heq x Hx). cbn [comb] in Heq. lra. }
  intros i Hi. destruct (Nat.eq_dec i q) as [->|Hne]; [exact Hq|].
  apply (IH rs Hnd); [lia| |lia]. intros x Hx. rewrite <- (Heq x Hx). cbn [comb]. rewrite Hq. ring.
Qed.

Lemma peval_app l a x : peval (l ++ [a]) x = peval l x + a * x ^ length l.
Proof. induction l as [|b l IH]; cbn [app peval length pow]; [ring|]. rewrite IH. ring. Qed.
Lemma peval_removelast l x : last l 0 = 0 -> peval (removelast l) x = peval l x.
Proof.
  intros H. destruct l as [|a l]; [reflexivity|].
  rewrite (app_removelast_last 0 (l := a :: l)) at 2 by discriminate. rewrite peval_app, H. ring.
Qed.
Lemma removelast_length {X} (l : list X) : length (removelast l) = pred (length l).
Proof.
  induction l as [|a l IH]; [reflexivity|]. destruct l as [|b l]; [reflexivity|].
  cbn [removelast length] in *. rewrite IH. reflexivity.
Qed.
Lemma last_padd_eq p q : length p = length q -> last (padd p q) 0 = last p 0 + last q 0.
Proof.
  revert q; induction p as [|a p IH]; intros [|b q] H; cbn in H; try discriminate; [cbn; ring|].
  injection H as H. destruct p as [|c p], q as [|d q]; try discriminate; [cbn; ring|].
  change (padd (a :: c :: p) (b :: d :: q)) with ((a + b) :: padd (c :: p) (d :: q)).
  rewrite last_cons by (cbn; discriminate). rewrite (last_cons a), (last_cons b) by discriminate.
  apply IH. exact H.
Qed.

Lemma comb_ext_coef a b g q : (forall i, (i < q)%nat -> a i = b i) -> comb a g q = comb b g q.
Proof.
  intros H. induction q as [|q IH]; cbn [comb]; [reflexivity|].
  rewrite IH by (intros; apply H; lia). rewrite H by lia. reflexivity.
Qed.

Lemma graded_span p : graded p -> forall q l, (length l <= q)%nat ->
  exists a, forall x, comb a (fun i => p i x) q = peval l x.
Proof.
  intros Hp. induction q as [|q IH]; intros l Hl.
  - exists (fun _ => 0). intros x. destruct l; [reflexivity|cbn in Hl; lia].
  - destruct (Nat.eq_dec (length l) (S q)) as [E|E].
    + destruct (Hp q) as (c & Lc & Nc & Ec). pose (t := last l 0 / last c 0).
      pose (l' := padd l (pscale (- t) c)).
      assert (Hlast : last l' 0 = 0).
      { unfold l'. rewrite last_padd_eq by (rewrite pscale_length; lia). rewrite last_pscale. unfold t. field. exact Nc. }
      destruct (IH (removelast l')) as (a & Ha).
      { rewrite removelast_length. unfold l'. rewrite padd_length, pscale_length. lia. }
      exists (fun i => if (i <? q)%nat then a i else t). intros x. cbn [comb].
      rewrite (comb_ext_coef _ a) by (intros i Hi; destruct (Nat.ltb_spec i q); [reflexivity|lia]).
      rewrite Ha, peval_removelast by exact Hlast. unfold l'. rewrite peval_padd, peval_pscale, Ec.
      destruct (Nat.ltb_spec q q); [lia|]. ring.
    + destruct (IH l ltac:(lia)) as (a & Ha).
      exists (fun i => if (i <? q)%nat then a i else 0). intros x. cbn [comb].
      rewrite (comb_ext_coef _ a) by (intros i Hi; destruct (Nat.ltb_spec i q); [reflexivity|lia]).
      rewrite Ha. destruct (Nat.ltb_spec q q); [lia|]. ring.
Qed.

(** ** the columns *)
Fixpoint pder (l : list R) : list R :=
  match l with [] => [] | _ :: l' => match l' with [] => [] | _ => padd l' (0 :: pder l') end end.
Lemma pder_cons a l x : peval (pder (a :: l)) x = peval l x + x * peval (pder l) x.
Proof. cbn [pder]. destruct l as [|b l]; [cbn; ring|]. rewrite peval_padd. cbn [peval]. ring. Qed.
Lemma pder_ok l x : is_derive (peval l) x (peval (pder l) x).
Proof.
  induction l as [|a l IH].
  - apply is_derive_Reals, derivable_pt_lim_const.
  - rewrite pder_cons.
    apply is_derive_ext with (f := fun t => a + t * peval l t); [reflexivity|].
    replace (peval l x + x * peval (pder l) x) with (0 + (1 * peval l x + x * peval (pder l) x)) by ring.
    apply (is_derive_plus (fun _ => a) (fun t => t * peval l t)).
    + apply is_derive_Reals, derivable_pt_lim_const.
    + apply is_derive_Reals, (derivable_pt_lim_mult (fun t => t) (peval l)).
      * apply derivable_pt_lim_id.
      * apply is_derive_Reals, IH.
Qed.
Lemma pder_shape l : length (pder l) = pred (length l) /\
  ((2 <= length l)%nat -> last (pder l) 0 = INR (length l - 1) * last l 0).
Proof.
  induction l as [|a l [IL IE]]; [split; [reflexivity|cbn; lia]|].
  destruct l as [|b l]; [split; [reflexivity|cbn; lia]|].
  set (l0 := b :: l) in *. change (pder (a :: l0)) with (padd l0 (0 :: pder l0)).
  assert (Hl0 : length l0 = S (length l)) by reflexivity.
  split; [rewrite padd_length; cbn [length]; rewrite IL; lia|].
  intros _. rewrite last_padd_eq by (cbn [length]; rewrite IL; lia).
  rewrite (last_cons a) by discriminate.
  destruct l as [|c l]; [cbn; ring|].
  rewrite (last_cons 0) by (intros E0; apply (f_equal (@length R)) in E0; rewrite IL, Hl0 in E0; cbn in E0; discriminate).
  rewrite IE by (rewrite Hl0; cbn; lia).
  cbn [length]. replace (S (length l0) - 1)%nat with (S (length l0 - 1)) by lia. rewrite S_INR. ring.
Qed.

Section Col.
Variables (f : fam) (al bt : R).
Hypothesis Hf : f <> FS.
Hypothesis Hal : al <> 0.

Lemma col_deriv_aff k d x : is_derive (fun t => ftab f k d (al * t + bt)) x (al * ftab f k (S d) (al * x + bt)).
Proof.
  pose proof (tab_deriv (ca f) (cb f) (cc f) k d (al * x + bt)) as H.
  apply (is_derive_comp (ftab f k d) (fun t => al * t + bt)); [exact H|].
  auto_derive; [exact I|ring].
Qed.

Lemma col_poly_d k d : exists l, length l = S k /\ last l 0 <> 0 /\ forall x, ftab f (d + k) d (al * x + bt) = peval l x.
Proof.
  revert k; induction d as [|d IH]; intros k.
  - apply (col_poly f al bt Hf Hal).
  - destruct (IH (S k)) as (l & Ll & Nl & El).
    destruct (pder_shape l) as [PL PE]. rewrite Ll in *.
    exists (pscale (/ al) (pder l)). split; [rewrite pscale_length, PL; lia|]. split.
    + rewrite last_pscale, PE by lia. apply Rmult_integral_contrapositive_currified; [apply Rinv_neq_0_compat, Hal|].
      apply Rmult_integral_contrapositive_currified; [apply not_0_INR; lia|exact Nl].
    + intros x. rewrite peval_pscale.
      pose proof (col_deriv_aff (S d + k) d x) as D1.
      assert (D2 : is_derive (fun t => ftab f (S d + k) d (al * t + bt)) x (peval (pder l) x)).
      { apply is_derive_ext with (f := peval l); [|apply pder_ok].
        intros t. rewrite <- El. f_equal. lia. }
      apply is_derive_unique in D1. apply is_derive_unique in D2. rewrite D1 in D2. rewrite <- D2. field. exact Hal.
Qed.

Lemma cols_graded d : graded (fun i x => ftab f (d + i) d (al * x + bt)).
Proof. intros i. apply col_poly_d. Qed.
End Col.

(** ** a combination of some of the columns as one of all of them *)
Fixpoint coef (ks : list nat) (a : nat -> R) (j : nat) : R :=
  match ks with [] => 0 | k :: ks' => (if (k =? j)%nat then a 0%nat else 0) + coef ks' (fun i => a (S i)) j end.
Lemma comb_delta v k g q : (k < q)%nat -> comb (fun j => if (k =? j)%nat then v else 0) g q = v * g k.
Proof.
  intros Hk. induction q as [|q IH]; [lia|]. cbn [comb]. destruct (Nat.eqb_spec k q) as [->|Hne].
  - rewrite (comb_ext_coef _ (fun _ => 0)).
    + assert (E : forall q', comb (fun _ => 0) g q' = 0) by (induction q'; cbn; [reflexivity|lra]). rewrite E. ring.
    + intros i Hi. destruct (Nat.eqb_spec q i); [lia|reflexivity].
  - rewrite IH by lia. ring.
Qed.
Lemma comb_plus a b g q : comb (fun i => a i + b i) g q = comb a g q + comb b g q.
Proof. induction q as [|q IH]; cbn [comb]; [ring|]. rewrite IH. ring. Qed.
Lemma row_comb_coef ks : forall a g q, (forall k, In k ks -> (k < q)%nat) -> row_comb a (map g ks) = comb (coef ks a) g q.
Proof.
  induction ks as [|k ks IH]; intros a g q Hk; cbn [map row_comb coef].
  - induction q as [|q IHq]; [reflexivity|]. cbn [comb]. rewrite <- IHq by (intros ? []). ring.
  - rewrite (IH _ g q) by (intros; apply Hk; right; assumption).
    rewrite comb_plus, comb_delta by (apply Hk; left; reflexivity). reflexivity.
Qed.
Lemma coef_out ks : forall a j, ~ In j ks -> coef ks a j = 0.
Proof.
  induction ks as [|k ks IH]; intros a j Hn; cbn [coef]; [reflexivity|].
  destruct (Nat.eqb_spec k j) as [->|_]; [exfalso; apply Hn; left; reflexivity|].
  rewrite IH; [ring|]. intros H; apply Hn; right; exact H.
Qed.
Lemma coef_at ks : forall a i k, NoDup ks -> nth_error ks i = Some k -> coef ks a k = a i.
Proof.
  induction ks as [|k0 ks IH]; intros a i k Hnd Hi; [destruct i; discriminate|].
  inversion Hnd as [|k' ks' Hni Hnd']; subst. destruct i as [|i]; cbn [nth_error] in Hi.
  - injection Hi as <-. cbn [coef]. rewrite Nat.eqb_refl, coef_out by exact Hni. ring.
  - cbn [coef]. destruct (Nat.eqb_spec k0 k) as [->|_]; [exfalso; apply Hni; eapply nth_error_In, Hi|].
    rewrite (IH _ i) by assumption. ring.
Qed.
Lemma sorted_nodup ks : StronglySorted lt ks -> NoDup ks.
Proof.
  induction 1 as [|k ks Hs IH Hall]; constructor; [|exact IH].
  intros Hin. rewrite List.Forall_forall in Hall. specialize (Hall k Hin). lia.
Qed.
Lemma uks_ok u full : NoDup (uks u full) /\ forall k, In k (uks u full) -> (k < b_m (u_B u))%nat.
Proof.
  unfold uks. destruct full.
  - split; [apply seq_NoDup|]. intros k Hk. apply in_seq in Hk. lia.
  - split; [apply sorted_nodup, keptc_sorted|]. intros k Hk. apply keptc_in in Hk. tauto.
Qed.

(** ** Chebyshev and Legendre *)
Lemma points_nodup bs x0 xf n : x0 < xf -> NoDup (map (point_rule bs x0 xf n) (seq 0 (S n))).
Proof.
  intros Hx. apply (proj2 (NoDup_nth _ 0)). rewrite map_length, seq_length. intros i j Hi Hj E.
  assert (Hn : forall k, (k < S n)%nat -> nth k (map (point_rule bs x0 xf n) (seq 0 (S n))) 0 = point_rule bs x0 xf n k).
  { intros k Hk. rewrite (nth_indep _ 0 (point_rule bs x0 xf n 0)) by (rewrite map_length, seq_length; exact Hk).
    rewrite map_nth, seq_nth by exact Hk. reflexivity. }
  rewrite !Hn in E by assumption.
  destruct (Nat.lt_total i j) as [H|[H|H]]; [|exact H|].
  - pose proof (rule_incr bs x0 xf n i j Hx H ltac:(lia)). lra.
  - pose proof (rule_incr bs x0 xf n j i Hx H ltac:(lia)). lra.
Qed.

Lemma slope_nz f x0 xf : f <> FS -> x0 <> xf -> slope f x0 xf <> 0.
Proof.
  intros Hf Hx. destruct f; cbn; try congruence; try lra;
    (apply Rmult_integral_contrapositive_currified; [lra|apply Rinv_neq_0_compat; lra]).
Qed.
Lemma b_c_nz f x0 xf l m : f <> FS -> x0 <> xf -> b_c (fam_init ROps RFun f x0 xf l m) <> 0.
Proof.
  intros Hf Hx. destruct f; cbn; try congruence; try lra;
  (unfold Rdiv; apply Rmult_integral_contrapositive_currified; [lra|apply Rinv_neq_0_compat; lra]).
Qed.

Section Main.
Context (jvp : (R -> R) -> R -> R -> R) (Hj : jvp_ok jvp).
Local Notation uH := (utfc_H ROps RFun jvp).

Lemma uH_family be f N nC deg x0 xf w b u l d full xs : mk be (UB f) N nC deg x0 xf w b = Some u ->
  x0 <> xf -> utfc_nC nC = Some l -> (full = false -> valid_nC l (S deg)) ->
  exists M, uH u xs d full = Some M /\ mc M = length (uks u full) /\
    md M = map (fun x => map (fun k => col f k d (zmap f x0 xf x) * b_c (u_B u) ^ d) (uks u full)) xs /\
    b_m (u_B u) = S deg /\ u_B u = fam_init ROps RFun f x0 xf l (S deg).
Proof.
  intros Hu Hx El Hv. pose proof (mk_nC _ _ _ _ _ _ _ _ _ _ _ Hu El) as EnC.
  eexists. split; [apply (uH_k jvp Hj _ _ _ _ _ _ _ _ _ _ xs d full Hu)|].
  - exact I.
  - exact I.
  - rewrite EnC. exact Hv.
  - split; [reflexivity|]. apply mk_inv in Hu as (l' & z & x & El' & _ & _ & _ & _ & ->). cbn [u_B].
    assert (l' = l) by congruence; subst l'. split; [|split; [apply ubase_m|reflexivity]].
    cbn [md kmat]. apply map_ext. intros t. apply map_ext. intros k. cbn [ubase ucol]. rewrite zmap_ok by exact Hx. reflexivity.
Qed.

Lemma c73_poly be f N nC deg x0 xf w b u l d full xs : mk be (UB f) N nC deg x0 xf w b = Some u -> f <> FS ->
  x0 <> xf -> utfc_nC nC = Some l -> (full = false -> valid_nC l (S deg)) ->
  (forall k, (k < d)%nat -> full = false /\ In (Z.of_nat k) l) ->
  NoDup xs -> (S deg - d <= length xs)%nat ->
  exists M, uH u xs d full = Some M /\ independent_columns M.
Proof.
  intros Hu Hf Hx El Hv Hd Hnd Hlen.
  destruct (uH_family be f N nC deg x0 xf w b u l d full xs Hu Hx El Hv) as (M & EM & EmC & Emd & Em & EB).
  exists M. split; [exact EM|]. intros a Ha i Hi. rewrite EmC in Hi.
  destruct (uks_ok u full) as [Hknd Hklt]. rewrite Em in Hklt.
  assert (Hkge : forall k, In k (uks u full) -> (d <= k)%nat).
  { intros k Hk. destruct (Nat.le_gt_cases d k) as [H|H]; [exact H|exfalso]. destruct (Hd k H) as [-> Hin].
    unfold uks in Hk. apply keptc_in in Hk as [_ Hk]. apply Hk. rewrite EB, fam_init_nC. exact Hin. }
  destruct (nth_error (uks u full) i) as [k|] eqn:Ek; [|apply nth_error_None in Ek; lia].
  pose proof (nth_error_In _ _ Ek) as Hkin.
  rewrite <- (coef_at (uks u full) a i k Hknd Ek).
  replace k with (d + (k - d))%nat by (specialize (Hkge k Hkin); lia).
  apply (graded_indep (fun i x => ftab f (d + i) d (slope f x0 xf * x + offset f x0 xf))) with
     (a := fun i => coef (uks u full) a (d + i)) (q := (S deg - d)%nat) (rs := xs); [|exact Hnd|exact Hlen| |].
  - apply cols_graded; [exact Hf|apply slope_nz; assumption].
  - intros x Hxin. rewrite Emd in Ha. specialize (Ha _ (in_map _ _ _ Hxin)).
    rewrite (row_comb_coef _ _ (fun k => col f k d (zmap f x0 xf x) * b_c (u_B u) ^ d) (S deg) Hklt) in Ha.
    assert (E : forall q, (d <= q)%nat ->
      comb (coef (uks u full) a) (fun k => col f k d (zmap f x0 xf x) * b_c (u_B u) ^ d) q =
      b_c (u_B u) ^ d * comb (fun i => coef (uks u full) a (d + i)) (fun i => ftab f (d + i) d (slope f x0 xf * x + offset f x0 xf)) (q - d)).
    { induction q as [|q IH]; intros Hq.
      - cbn [comb Nat.sub]. ring.
      - destruct (Nat.eq_dec d (S q)) as [Ed|Ed].
        + rewrite Ed, Nat.sub_diag. cbn [comb]. rewrite <- Ed.
          assert (Z0 : forall q', (q' <= d)%nat -> comb (coef (uks u full) a) (fun k => col f k d (zmap f x0 xf x) * b_c (u_B u) ^ d) q' = 0).
          { induction q' as [|q' IH']; intros Hq'; [reflexivity|]. cbn [comb]. rewrite IH' by lia.
            rewrite coef_out; [ring|]. intros Hin. specialize (Hkge _ Hin). lia. }
          rewrite Z0 by lia. rewrite coef_out; [ring|]. intros Hin. specialize (Hkge _ Hin). lia.
        + replace (S q - d)%nat with (S (q - d)) by lia. cbn [comb]. rewrite IH by lia.
          replace (d + (q - d))%nat with q by lia. rewrite <- zmap_affine by assumption.
          assert (Ec : col f q d (zmap f x0 xf x) = ftab f q d (zmap f x0 xf x)) by (destruct f; try reflexivity; congruence).
          rewrite Ec. ring. }
    destruct (Nat.le_gt_cases d (S deg)) as [Hds|Hds].
    + rewrite E in Ha by exact Hds. apply Rmult_integral in Ha as [Ha|Ha]; [exfalso|exact Ha].
      revert Ha. apply pow_nonzero. rewrite EB. apply b_c_nz; assumption.
    + replace (S deg - d)%nat with 0%nat by lia. reflexivity.
  - specialize (Hklt k Hkin). specialize (Hkge k Hkin). lia.
Qed.

(** fewer points than functions: the polynomial that vanishes at the points *)
Fixpoint proots (rs : list R) : list R :=
  match rs with [] => [1] | r :: rs' => padd (0 :: proots rs') (pscale (- r) (proots rs')) end.
Lemma proots_shape rs : length (proots rs) = S (length rs) /\ last (proots rs) 0 = 1.
Proof.
  induction rs as [|r rs [IL IE]]; [split; reflexivity|]. cbn [proots]. split.
  - rewrite padd_length, pscale_length. cbn [length]. lia.
  - rewrite last_padd by (rewrite pscale_length; cbn [length]; lia).
    rewrite last_cons by (intros E; rewrite E in IL; discriminate). exact IE.
Qed.
Lemma proots_root rs r : In r rs -> peval (proots rs) r = 0.
Proof.
  induction rs as [|r' rs IH]; intros H; [destruct H|]. cbn [proots]. rewrite peval_padd, peval_pscale. cbn [peval].
  destruct H as [->|H]; [ring|]. rewrite IH by exact H. ring.
Qed.
Lemma INR_nodup n : NoDup (map INR (seq 0 n)).
Proof. apply FinFun.Injective_map_NoDup; [intros a b; apply INR_eq|apply seq_NoDup]. Qed.

Lemma c73_poly_few be f N nC deg x0 xf w b u l xs M : mk be (UB f) N nC deg x0 xf w b = Some u -> f <> FS ->
  x0 <> xf -> utfc_nC nC = Some l -> (length xs <= deg)%nat ->
  uH u xs 0 true = Some M -> ~ independent_columns M.
Proof.
  intros Hu Hf Hx El Hlen HM Hind.
  destruct (uH_family be f N nC deg x0 xf w b u l 0 true xs Hu Hx El ltac:(discriminate)) as (M' & EM & EmC & Emd & Em & EB).
  assert (M' = M) by congruence; subst M'. unfold uks in *. rewrite Em, seq_length in EmC. rewrite Em in Emd.
  assert (Hg : graded (fun i x => ftab f (0 + i) 0 (slope f x0 xf * x + offset f x0 xf)))
    by (apply cols_graded; [exact Hf|apply slope_nz; assumption]).
  destruct (proots_shape xs) as [PL PE].
  destruct (graded_span _ Hg (S deg) (proots xs)) as (a & Ha); [lia|].
  assert (Hz : forall i, (i < S deg)%nat -> a i = 0).
  { rewrite <- EmC. apply Hind. intros row Hrow. rewrite Emd in Hrow. apply in_map_iff in Hrow as (x & <- & Hxin).
    rewrite row_comb_seq. rewrite <- (proots_root xs x Hxin), <- Ha. apply comb_ext. intros i _.
    cbn [pow]. rewrite Rmult_1_r, zmap_affine by assumption. destruct f; try reflexivity. congruence. }
  assert (Hz0 : forall x, peval (proots xs) x = 0).
  { intros x. rewrite <- Ha. rewrite (comb_ext_coef a (fun _ => 0)) by exact Hz.
    generalize (S deg) as q. induction q as [|q IH]; cbn [comb]; [reflexivity|]. rewrite IH. ring. }
  pose proof (roots (length xs) (proots xs) PL ltac:(lra) (map INR (seq 0 (S (length xs)))) (INR_nodup _) (fun r _ => Hz0 r)) as Hr.
  rewrite map_length, seq_length in Hr. lia.
Qed.
End Main.

(** ** Fourier: sums over equally spaced angles *)
Definition ang (n k : nat) : R := - PI + 2 * PI * (INR k / INR n).
Lemma sum_tele n (s : Z) (ph : nat -> R) (F G : R -> R) (c : R) : 
  (forall k, c * F (IZR s * ang n k) = G (ph (S k)) - G (ph k)) ->
  forall q, c * comb (fun _ => 1) (fun k => F (IZR s * ang n k)) q = G (ph q) - G (ph 0%nat).
Proof.
  intros H q. induction q as [|q IH]; cbn [comb]; [ring|]. rewrite Rmult_plus_distr_l, IH, Rmult_1_l, H. ring.
Qed.
Lemma sin_period_Z x s : sin (x + 2 * IZR s * PI) = sin x.
Proof.
  destruct (Z.le_gt_cases 0 s) as [H|H].
  - rewrite <- (Z2Nat.id s H), <- INR_IZR_INZ. apply sin_period.
  - rewrite <- (sin_period (x + 2 * IZR s * PI) (Z.to_nat (- s))). f_equal.
    rewrite INR_IZR_INZ, Z2Nat.id, opp_IZR by lia. ring.
Qed.
Lemma cos_period_Z x s : cos (x + 2 * IZR s * PI) = cos x.
Proof.
  destruct (Z.le_gt_cases 0 s) as [H|H].
  - rewrite <- (Z2Nat.id s H), <- INR_IZR_INZ. apply cos_period.
  - rewrite <- (cos_period (x + 2 * IZR s * PI) (Z.to_nat (- s))). f_equal.
    rewrite INR_IZR_INZ, Z2Nat.id, opp_IZR by lia. ring.
Qed.

Section Sums.
Variable n : nat.
Hypothesis Hn : (1 <= n)%nat.
Let n0 : INR n <> 0. Proof. apply not_0_INR. lia. Qed.
Definition ph (s : Z) (k : nat) : R := IZR s * (- PI + (2 * INR k - 1) * PI / INR n).
Lemma ph_last s : ph s n = ph s 0 + 2 * IZR s * PI.
Proof. unfold ph. cbn [INR]. field. exact n0. Qed.
Lemma ph_plus s k : IZR s * ang n k + IZR s * PI / INR n = ph s (S k).
Proof. unfold ph, ang. rewrite S_INR. field. exact n0. Qed.
Lemma ph_minus s k : IZR s * ang n k - IZR s * PI / INR n = ph s k.
Proof. unfold ph, ang. field. exact n0. Qed.

Lemma half_nz s : s <> 0%Z -> (Z.abs s < Z.of_nat n)%Z -> 2 * sin (IZR s * PI / INR n) <> 0.
Proof.
  intros Hs Hlt. enough (forall t : Z, (0 < t < Z.of_nat n)%Z -> 0 < sin (IZR t * PI / INR n)) as H.
  { destruct (Z.lt_ge_cases 0 s) as [Hp|Hp].
    - specialize (H s ltac:(lia)). lra.
    - specialize (H (- s)%Z ltac:(lia)). rewrite opp_IZR in H.
      replace (- IZR s * PI / INR n) with (- (IZR s * PI / INR n)) in H by (field; exact n0). rewrite sin_neg in H. lra. }
  intros t [Ht0 Htn]. pose proof PI_RGT_0 as HPI. apply IZR_lt in Ht0, Htn. rewrite <- INR_IZR_INZ in Htn.
  assert (0 < INR n) by lra.
  apply sin_gt_0.
  - apply Rdiv_lt_0_compat; [|assumption]. apply Rmult_lt_0_compat; lra.
  - apply (Rmult_lt_reg_r (INR n)); [assumption|]. unfold Rdiv. rewrite Rmult_assoc, Rinv_l by lra. nra.
Qed.

Lemma sum_cos s : s <> 0%Z -> (Z.abs s < Z.of_nat n)%Z -> comb (fun _ => 1) (fun k => cos (IZR s * ang n k)) n = 0.
Proof.
  intros Hs Hlt.
  pose proof (sum_tele n s (ph s) cos sin (2 * sin (IZR s * PI / INR n))) as H.
  assert (Hk : forall k, 2 * sin (IZR s * PI / INR n) * cos (IZR s * ang n k) = sin (ph s (S k)) - sin (ph s k)).
  { intros k. rewrite <- ph_plus, <- ph_minus, sin_plus, sin_minus. ring. }
  specialize (H Hk n). rewrite ph_last, sin_period_Z in H.
  assert (E : 2 * sin (IZR s * PI / INR n) * comb (fun _ => 1) (fun k => cos (IZR s * ang n k)) n = 0) by lra.
  apply Rmult_integral in E as [E|E]; [exfalso; revert E; apply half_nz; assumption|exact E].
Qed.
Lemma sum_sin s : (Z.abs s < Z.of_nat n)%Z -> comb (fun _ => 1) (fun k => sin (IZR s * ang n k)) n = 0.
Proof.
  intros Hlt. destruct (Z.eq_dec s 0) as [->|Hs].
  { rewrite (comb_ext _ _ (fun _ => 0)) by (intros; rewrite Rmult_0_l; apply sin_0).
    clear. generalize n. induction n0 as [|q IH]; cbn [comb]; [reflexivity|]. rewrite IH. ring. }
  pose proof (sum_tele n s (ph s) sin (fun t => - cos t) (2 * sin (IZR s * PI / INR n))) as H.
  assert (Hk : forall k, 2 * sin (IZR s * PI / INR n) * sin (IZR s * ang n k) = - cos (ph s (S k)) - - cos (ph s k)).
  { intros k. rewrite <- ph_plus, <- ph_minus, cos_plus, cos_minus. ring. }
  specialize (H Hk n). cbn beta in H. rewrite ph_last, cos_period_Z in H.
  assert (E : 2 * sin (IZR s * PI / INR n) * comb (fun _ => 1) (fun k => sin (IZR s * ang n k)) n = 0) by lra.
  apply Rmult_integral in E as [E|E]; [exfalso; revert E; apply half_nz; assumption|exact E].
Qed.
End Sums.

Definition sum1 (g : nat -> R) (n : nat) : R := comb (fun _ => 1) g n.
Lemma sum1_ext g h n : (forall k, (k < n)%nat -> g k = h k) -> sum1 g n = sum1 h n.
Proof. apply comb_ext. Qed.
Lemma sum1_plus g h n : sum1 (fun k => g k + h k) n = sum1 g n + sum1 h n.
Proof. unfold sum1. induction n as [|n IH]; cbn [comb]; [ring|]. rewrite IH. ring. Qed.
Lemma sum1_scale c g n : sum1 (fun k => c * g k) n = c * sum1 g n.
Proof. unfold sum1. induction n as [|n IH]; cbn [comb]; [ring|]. rewrite IH. ring. Qed.
Lemma sum1_one n : sum1 (fun _ => 1) n = INR n.
Proof. unfold sum1. induction n as [|n IH]; cbn [comb]; [reflexivity|]. rewrite IH, S_INR. ring. Qed.
Lemma sum1_swap c (g : nat -> nat -> R) (h : nat -> R) m n :
  sum1 (fun k => comb c (fun i => g i k) m * h k) n = comb c (fun i => sum1 (fun k => g i k * h k) n) m.
Proof.
  induction m as [|m IH]; cbn [comb].
  - rewrite (sum1_ext _ (fun _ => 0 * 1)) by (intros; ring). rewrite sum1_scale. ring.
  - rewrite <- IH, <- sum1_scale, <- sum1_plus. apply sum1_ext. intros; ring.
Qed.

Definition freq (j : nat) : nat := (j + 1) / 2.
Lemma freq_even q : freq (2 * q) = q.
Proof. unfold freq. rewrite (Nat.mul_comm 2), Nat.div_add_l by lia. cbn. lia. Qed.
Lemma freq_odd q : freq (2 * q + 1) = S q.
Proof. unfold freq. replace (2 * q + 1 + 1)%nat with (S q * 2 + 0)%nat by lia. rewrite Nat.div_add_l by lia. cbn. lia. Qed.
Lemma fs_even q z : fscol (2 * q) 0 z = cos (IZR (Z.of_nat q) * z).
Proof.
  rewrite <- INR_IZR_INZ. destruct q as [|q].
  - cbn. rewrite Rmult_0_l, cos_0. reflexivity.
  - pose proof (freq_even (S q)) as Hf. unfold freq in Hf. unfold fscol.
    replace (2 * S q)%nat with (S (2 * q + 1)) in * by lia. rewrite Hf.
    replace (S (2 * q + 1) mod 2)%nat with 0%nat.
    + cbn [Nat.eqb]. change (0 mod 4)%nat with 0%nat. cbn [pow]. ring.
    + replace (S (2 * q + 1)) with (0 + S q * 2)%nat by lia. rewrite Nat.mod_add by lia. reflexivity.
Qed.
Lemma fs_odd q z : fscol (2 * q + 1) 0 z = sin (IZR (Z.of_nat (S q)) * z).
Proof.
  rewrite <- INR_IZR_INZ. pose proof (freq_odd q) as Hf. unfold freq in Hf. unfold fscol.
  replace (2 * q + 1)%nat with (S (2 * q)) in * by lia. rewrite Hf.
  replace (S (2 * q) mod 2)%nat with 1%nat.
  + cbn [Nat.eqb]. change (0 mod 4)%nat with 0%nat. cbn [pow]. ring.
  + replace (S (2 * q)) with (1 + q * 2)%nat by lia. rewrite Nat.mod_add by lia. reflexivity.
Qed.

Section Orth.
Variable n : nat.
Hypothesis Hn : (1 <= n)%nat.
Let SC (s : Z) := sum1 (fun k => cos (IZR s * ang n k)) n.
Let SS (s : Z) := sum1 (fun k => sin (IZR s * ang n k)) n.
Lemma scc p q : sum1 (fun k => cos (IZR p * ang n k) * cos (IZR q * ang n k)) n = / 2 * (SC (p - q) + SC (p + q)).
Proof.
  unfold SC. rewrite <- sum1_plus, <- sum1_scale. apply sum1_ext. intros k _.
  rewrite minus_IZR, plus_IZR. rewrite Rmult_minus_distr_r, Rmult_plus_distr_r, cos_minus, cos_plus. field.
Qed.
Lemma sss p q : sum1 (fun k => sin (IZR p * ang n k) * sin (IZR q * ang n k)) n = / 2 * (SC (p - q) + - 1 * SC (p + q)).
Proof.
  unfold SC. rewrite <- (sum1_scale (-1)), <- sum1_plus, <- sum1_scale. apply sum1_ext. intros k _.
  rewrite minus_IZR, plus_IZR. rewrite Rmult_minus_distr_r, Rmult_plus_distr_r, cos_minus, cos_plus. field.
Qed.
Lemma ssc p q : sum1 (fun k => sin (IZR p * ang n k) * cos (IZR q * ang n k)) n = / 2 * (SS (p - q) + SS (p + q)).
Proof.
  unfold SS. rewrite <- sum1_plus, <- sum1_scale. apply sum1_ext. intros k _.
  rewrite minus_IZR, plus_IZR. rewrite Rmult_minus_distr_r, Rmult_plus_distr_r, sin_minus, sin_plus. field.
Qed.
Lemma SC0 : SC 0 = INR n.
Proof. unfold SC. rewrite <- sum1_one. apply sum1_ext. intros. rewrite Rmult_0_l, cos_0. reflexivity. Qed.
Lemma SCs s : s <> 0%Z -> (Z.abs s < Z.of_nat n)%Z -> SC s = 0. Proof. apply sum_cos. exact Hn. Qed.
Lemma SSs s : (Z.abs s < Z.of_nat n)%Z -> SS s = 0. Proof. apply sum_sin. exact Hn. Qed.

Lemma fs_orth i j : i <> j -> (freq i + freq j < n)%nat ->
  sum1 (fun k => fscol i 0 (ang n k) * fscol j 0 (ang n k)) n = 0.
Proof.
  intros Hij Hlt. destruct (Nat.Even_or_Odd i) as [(p & ->)|(p & ->)], (Nat.Even_or_Odd j) as [(q & ->)|(q & ->)];
    rewrite ?freq_even, ?freq_odd in Hlt.
  - rewrite (sum1_ext _ (fun k => cos (IZR (Z.of_nat p) * ang n k) * cos (IZR (Z.of_nat q) * ang n k))) by (intros; rewrite !fs_even; reflexivity).
    rewrite scc, !SCs by lia. ring.
  - rewrite (sum1_ext _ (fun k => sin (IZR (Z.of_nat (S q)) * ang n k) * cos (IZR (Z.of_nat p) * ang n k))) by (intros; rewrite fs_even, fs_odd; ring).
    rewrite ssc, !SSs by lia. ring.
  - rewrite (sum1_ext _ (fun k => sin (IZR (Z.of_nat (S p)) * ang n k) * cos (IZR (Z.of_nat q) * ang n k))) by (intros; rewrite fs_even, fs_odd; ring).
    rewrite ssc, !SSs by lia. ring.
  - rewrite (sum1_ext _ (fun k => sin (IZR (Z.of_nat (S p)) * ang n k) * sin (IZR (Z.of_nat (S q)) * ang n k))) by (intros; rewrite !fs_odd; reflexivity).
    rewrite sss, !SCs by lia. ring.
Qed.
Lemma fs_norm j : (freq j + freq j < n)%nat ->
  sum1 (fun k => fscol j 0 (ang n k) * fscol j 0 (ang n k)) n <> 0.
Proof.
  intros Hlt. assert (INR n <> 0) by (apply not_0_INR; lia).
  destruct (Nat.Even_or_Odd j) as [(q & ->)|(q & ->)]; rewrite ?freq_even, ?freq_odd in Hlt.
  - rewrite (sum1_ext _ (fun k => cos (IZR (Z.of_nat q) * ang n k) * cos (IZR (Z.of_nat q) * ang n k))) by (intros; rewrite !fs_even; reflexivity).
    rewrite scc, Z.sub_diag, SC0. destruct q as [|q]; [change (Z.of_nat 0 + Z.of_nat 0)%Z with 0%Z; rewrite SC0; lra|]. rewrite SCs by lia. lra.
  - rewrite (sum1_ext _ (fun k => sin (IZR (Z.of_nat (S q)) * ang n k) * sin (IZR (Z.of_nat (S q)) * ang n k))) by (intros; rewrite !fs_odd; reflexivity).
    rewrite sss, Z.sub_diag, SC0, SCs by lia. lra.
Qed.

Lemma comb_one a g j m : (j < m)%nat -> (forall i, (i < m)%nat -> i <> j -> g i = 0) -> comb a g m = a j * g j.
Proof.
  intros Hj Hz.
  assert (Z0 : forall q, (q <= j)%nat -> comb a g q = 0).
  { induction q as [|q IH]; intros Hq; cbn [comb]; [reflexivity|]. rewrite IH, Hz by lia. ring. }
  induction m as [|m IH]; [lia|]. cbn [comb]. destruct (Nat.eq_dec j m) as [->|Hne].
  - rewrite Z0 by lia. ring.
  - rewrite IH, (Hz m) by (try lia; intros; apply Hz; lia). ring.
Qed.

Lemma freq_mono i j : (i <= j)%nat -> (freq i <= freq j)%nat.
Proof. intros H. unfold freq. apply Nat.div_le_mono; lia. Qed.

Lemma fs_indep a m : (2 * (m / 2) < n)%nat ->
  (forall k, (k < n)%nat -> comb a (fun i => fscol i 0 (ang n k)) m = 0) -> forall j, (j < m)%nat -> a j = 0.
Proof.
  intros Hm Heq j Hj.
  assert (Hfr : forall i, (i < m)%nat -> (freq i <= m / 2)%nat).
  { intros i Hi. unfold freq. apply Nat.div_le_mono; lia. }
  assert (E : sum1 (fun k => comb a (fun i => fscol i 0 (ang n k)) m * fscol j 0 (ang n k)) n = 0).
  { rewrite (sum1_ext _ (fun _ => 0 * 1)) by (intros k Hk; rewrite Heq by exact Hk; ring). rewrite sum1_scale. ring. }
  rewrite sum1_swap, (comb_one _ _ j) in E.
  - apply Rmult_integral in E as [E|E]; [exact E|exfalso]. revert E. apply fs_norm. pose proof (Hfr j Hj). lia.
  - exact Hj.
  - intros i Hi Hne. apply fs_orth; [exact Hne|]. pose proof (Hfr i Hi). pose proof (Hfr j Hj). lia.
Qed.

(** too few points: two columns agree, or one vanishes *)
Lemma sin_int (t : Z) : sin (IZR t * PI) = 0.
Proof. apply sin_eq_0_1. exists t. reflexivity. Qed.
Lemma fs_dep m : (n <= 2 * (m / 2))%nat -> exists a, (exists j, (j < m)%nat /\ a j <> 0) /\
  forall k, comb a (fun i => fscol i 0 (ang n k)) m = 0.
Proof.
  intros Hm. assert (INR n <> 0) as n0 by (apply not_0_INR; lia).
  assert (Hm2 : (2 * (m / 2) <= m)%nat) by (pose proof (Nat.div_mod_eq m 2); lia).
  destruct (Nat.Even_or_Odd n) as [(p & Ep)|(p & Ep)].
  - destruct p as [|p]; [lia|].
    exists (fun i => if (2 * p + 1 =? i)%nat then 1 else 0). split.
    + exists (2 * p + 1)%nat. split; [lia|]. rewrite Nat.eqb_refl. lra.
    + intros k. rewrite comb_delta, fs_odd by lia.
      replace (IZR (Z.of_nat (S p)) * ang n k) with (IZR (Z.of_nat k - Z.of_nat (S p)) * PI).
      * rewrite sin_int. ring.
      * assert (En : INR n = 2 * INR (S p)) by (rewrite Ep, mult_INR; reflexivity).
        rewrite minus_IZR, <- !INR_IZR_INZ. unfold ang. rewrite En.
        assert (INR (S p) <> 0) by (apply not_0_INR; lia). field. assumption.
  - exists (fun i => (if (2 * p + 1 =? i)%nat then 1 else 0) + coef (match p with O => [] | S p' => [2 * p' + 1]%nat end) (fun _ => -1) i). split.
    + exists (2 * p + 1)%nat. split; [lia|]. rewrite Nat.eqb_refl, coef_out; [lra|].
      destruct p as [|p]; [intros []|]. intros [E|[]]. lia.
    + intros k. rewrite comb_plus, comb_delta, fs_odd by lia.
      rewrite <- (row_comb_coef _ _ (fun i => fscol i 0 (ang n k))).
      * assert (E : sin (IZR (Z.of_nat (S p)) * ang n k) = sin (IZR (Z.of_nat p) * ang n k)).
        { assert (En : IZR (Z.of_nat (S p)) * ang n k = PI - IZR (Z.of_nat p) * ang n k + 2 * IZR (Z.of_nat k - Z.of_nat p - 1) * PI).
          { rewrite !minus_IZR, <- !INR_IZR_INZ, S_INR.
            assert (Ea : INR n * ang n k = - (INR n * PI) + 2 * PI * INR k) by (unfold ang; field; exact n0).
            rewrite Ep, plus_INR, mult_INR in Ea. rewrite <- Ep in Ea. change (INR 2) with 2 in Ea. change (INR 1) with 1 in Ea.
            replace ((INR p + 1) * ang n k) with ((2 * INR p + 1) * ang n k - INR p * ang n k) by ring. rewrite Ea. ring. }
          rewrite En, sin_period_Z, sin_PI_x. reflexivity. }
        rewrite E. destruct p as [|p]; cbn [map row_comb].
        -- change (Z.of_nat 0) with 0%Z. rewrite Rmult_0_l, sin_0. ring.
        -- rewrite fs_odd. ring.
      * intros i Hi. destruct p as [|p]; [destruct Hi|]. destruct Hi as [<-|[]]. lia.
Qed.
End Orth.

Lemma equi_ang x0 xf n k : (1 <= n)%nat -> x0 <> xf -> zmap FS x0 xf (equispaced x0 xf n k) = ang n k.
Proof.
  intros Hn Hx. assert (INR n <> 0) by (apply not_0_INR; lia). unfold zmap, equispaced, ang. field. split; lra.
Qed.

Section Main2.
Context (jvp : (R -> R) -> R -> R -> R) (Hj : jvp_ok jvp).
Local Notation uH := (utfc_H ROps RFun jvp).

Lemma c73_fs be N nC deg x0 xf w b u l full : mk be (UB FS) N nC deg x0 xf w b = Some u ->
  x0 <> xf -> (2 <= N)%nat -> utfc_nC nC = Some l -> (full = false -> valid_nC l (S deg)) ->
  (2 * (S deg / 2) < N - 1)%nat ->
  exists M, uH u (u_x u) 0 full = Some M /\ independent_columns M.
Proof.
  intros Hu Hx HN El Hv Hm.
  destruct (uH_family jvp Hj be FS N nC deg x0 xf w b u l 0 full (u_x u) Hu Hx El Hv) as (M & EM & EmC & Emd & Em & EB).
  exists M. split; [exact EM|]. intros a Ha i Hi. rewrite EmC in Hi.
  destruct (uks_ok u full) as [Hknd Hklt]. rewrite Em in Hklt.
  destruct (nth_error (uks u full) i) as [k|] eqn:Ek; [|apply nth_error_None in Ek; lia].
  rewrite <- (coef_at (uks u full) a i k Hknd Ek).
  apply (fs_indep (N - 1) ltac:(lia) _ (S deg) Hm); [|apply Hklt; eapply nth_error_In, Ek].
  intros p Hp. rewrite Emd in Ha. rewrite (c18_points _ _ _ _ _ _ _ _ _ _ HN Hx Hu), map_map in Ha.
  specialize (Ha _ (in_map _ _ p (proj2 (in_seq N 0 p) ltac:(lia)))). cbn beta in Ha.
  rewrite (row_comb_coef _ _ (fun k => col FS k 0 (zmap FS x0 xf (point_rule (UB FS) x0 xf (N - 1) p)) * b_c (u_B u) ^ 0) (S deg) Hklt) in Ha.
  rewrite <- Ha. apply comb_ext. intros q _. cbn [pow col point_rule]. rewrite Rmult_1_r, equi_ang by (try lia; exact Hx). reflexivity.
Qed.

Lemma c73_fs_few be N nC deg x0 xf w b u l M : mk be (UB FS) N nC deg x0 xf w b = Some u ->
  x0 <> xf -> (2 <= N)%nat -> utfc_nC nC = Some l -> (N - 1 <= 2 * (S deg / 2))%nat ->
  uH u (u_x u) 0 true = Some M -> ~ independent_columns M.
Proof.
  intros Hu Hx HN El Hm HM Hind.
  destruct (uH_family jvp Hj be FS N nC deg x0 xf w b u l 0 true (u_x u) Hu Hx El ltac:(discriminate)) as (M' & EM & EmC & Emd & Em & EB).
  assert (M' = M) by congruence; subst M'. unfold uks in *. rewrite Em, seq_length in EmC. rewrite Em in Emd.
  destruct (fs_dep (N - 1) ltac:(lia) (S deg) Hm) as (a & (j & Hj' & Hne) & Ha).
  apply Hne. apply (Hind a); [|lia]. intros row Hrow. rewrite Emd, (c18_points _ _ _ _ _ _ _ _ _ _ HN Hx Hu), map_map in Hrow.
  apply in_map_iff in Hrow as (p & <- & _). rewrite row_comb_seq, <- (Ha p). apply comb_ext. intros q _.
  cbn [pow col point_rule Nat.add]. rewrite Rmult_1_r, equi_ang by (try lia; exact Hx). reflexivity.
Qed.
End Main2.
