(** Polynomials as coefficient lists; independence of the remaining columns (C58). *)
From Coq Require Import Reals Arith Lia Lra List Bool ZArith.
From Verif Require Import Base ProofBase Numbers ModelBFPy ModelBFCpp ProofTab ProofBFPy ProofBFCpp SpecBasis ProofH ProofPoly.
Import ListNotations.
Open Scope R_scope.

Fixpoint peval (l : list R) (x : R) : R :=
  match l with [] => 0 | a :: l' => a + x * peval l' x end.
Fixpoint padd (p q : list R) : list R :=
  match p, q with
  | [], _ => q
  | _, [] => p
  | a :: p', b :: q' => (a + b) :: padd p' q'
  end.
Definition pscale (c : R) (p : list R) : list R := map (Rmult c) p.

Lemma padd_nil_r p : padd p [] = p. Proof. destruct p; reflexivity. Qed.
Lemma peval_padd p q x : peval (padd p q) x = peval p x + peval q x.
Proof.
  revert q; induction p as [|a p IH]; intros [|b q]; cbn; try ring. rewrite IH. ring.
Qed.
Lemma peval_pscale c p x : peval (pscale c p) x = c * peval p x.
Proof. unfold pscale. induction p as [|a p IH]; cbn; [ring|]. rewrite IH. ring. Qed.
Lemma pscale_length c p : length (pscale c p) = length p. Proof. apply map_length. Qed.
Lemma padd_length p q : length (padd p q) = Nat.max (length p) (length q).
Proof. revert q; induction p as [|a p IH]; intros [|b q]; cbn; try reflexivity. rewrite IH. reflexivity. Qed.
Lemma last_cons {X} (a : X) l d : l <> [] -> last (a :: l) d = last l d.
Proof. destruct l; [congruence|reflexivity]. Qed.
Lemma last_padd p q : (length q < length p)%nat -> last (padd p q) 0 = last p 0.
Proof.
  revert q; induction p as [|a p IH]; intros [|b q] H; cbn in H; try lia; [reflexivity|].
  cbn [padd]. assert (Hp : p <> []) by (destruct p; cbn in H; [lia|congruence]).
  assert (Hpq : padd p q <> []).
  { intros E. apply (f_equal (@length R)) in E. rewrite padd_length in E. destruct p; [congruence|]. cbn [length] in E. lia. }
  rewrite !last_cons by assumption. apply IH. lia.
Qed.
Lemma last_pscale c p : last (pscale c p) 0 = c * last p 0.
Proof.
  induction p as [|a p IH]; [cbn; ring|]. destruct p as [|b p]; [cbn; ring|].
  cbn [pscale map]. rewrite !last_cons by (cbn; congruence). exact IH.
Qed.

(** synthetic division *)
Lemma synth l r : exists q, (forall x, peval l x - peval l r = (x - r) * peval q x) /\
   length q = pred (length l) /\ ((2 <= length l)%nat -> last q 0 = last l 0).
Proof.
  induction l as [|a l (q & Hq & Hl & Hla)].
  - exists []. cbn. split; [intros; ring|]. split; [reflexivity|lia].
  - exists (padd l (pscale r q)). split; [|split].
    + intros x. cbn [peval]. rewrite peval_padd, peval_pscale.
      replace (a + x * peval l x - (a + r * peval l r))
        with ((x - r) * peval l x + r * (peval l x - peval l r)) by ring.
      rewrite Hq. ring.
    + rewrite padd_length, pscale_length, Hl. cbn. lia.
    + intros H2. cbn in H2. rewrite last_cons by (destruct l; cbn in H2; [lia|congruence]).
      apply last_padd. rewrite pscale_length, Hl. lia.
Qed.

Lemma roots n : forall l, length l = S n -> last l 0 <> 0 -> forall rs, NoDup rs ->
  (forall r, In r rs -> peval l r = 0) -> (length rs <= n)%nat.
Proof.
  induction n as [|n IH]; intros l Hl Hlast rs Hnd Hr.
  - destruct l as [|a [|b l]]; cbn in Hl; try lia. cbn in Hlast.
    destruct rs as [|r rs]; [cbn; lia|]. specialize (Hr r (or_introl eq_refl)). cbn in Hr. lra.
  - destruct rs as [|r rs]; [cbn; lia|]. inversion Hnd as [|r' rs' Hni Hnd']; subst.
    destruct (synth l r) as (q & Hq & Hlq & Hla).
    cbn. apply le_n_S. apply (IH q); [lia|rewrite Hla by lia; exact Hlast|exact Hnd'|].
    intros s Hs. specialize (Hq s). rewrite (Hr s (or_intror Hs)), (Hr r (or_introl eq_refl)) in Hq.
    assert (Hsr : s - r <> 0) by (intros E; apply Hni; replace r with s by lra; exact Hs).
    assert (E : (s - r) * peval q s = 0) by lra. apply Rmult_integral in E. tauto.
Qed.

(** coefficient list of column k as a polynomial in x, when z = al x + be *)
Section Col.
Variables (f : fam) (al bt : R).
Hypothesis Hf : f <> FS.
Hypothesis Hal : al <> 0.

Lemma ca_neq k : ca f k <> 0.
Proof.
  destruct f; cbn; try congruence; try lra.
  - destruct k; lra.
  - pose proof (pos_INR k). apply Rgt_not_eq. apply Rdiv_lt_0_compat; lra.
  - pose proof (pos_INR k). apply Rlt_not_eq. unfold Rdiv.
    assert (0 < / (INR k + 1)) by (apply Rinv_0_lt_compat; lra). lra.
Qed.

Lemma col_poly k : exists l, length l = S k /\ last l 0 <> 0 /\
   forall x, ftab f k 0 (al * x + bt) = peval l x.
Proof.
  enough (H : (exists l, length l = S k /\ last l 0 <> 0 /\ forall x, ftab f k 0 (al * x + bt) = peval l x) /\
    (exists l, length l = S (S k) /\ last l 0 <> 0 /\ forall x, ftab f (S k) 0 (al * x + bt) = peval l x)) by tauto.
  induction k as [|k [(l0 & L0 & N0 & E0) (l1 & L1 & N1 & E1)]].
  - split.
    + exists [1]. cbn. repeat split; [lra|]. intros x. ring.
    + exists [ca f 0 * bt + cb f 0; ca f 0 * al]. repeat split.
      * cbn. intros E. apply Rmult_integral in E. pose proof (ca_neq 0). tauto.
      * intros x. unfold ftab. rewrite tab_1. cbn. ring.
  - split; [exists l1; repeat split; assumption|].
    exists (padd (0 :: pscale (ca f (S k) * al) l1)
             (padd (pscale (ca f (S k) * bt + cb f (S k)) l1) (pscale (- cc f (S k)) l0))).
    repeat split.
    + rewrite !padd_length. cbn [length]. rewrite !pscale_length. lia.
    + rewrite last_padd by (cbn [length]; rewrite padd_length, !pscale_length; lia).
      rewrite last_cons by (destruct l1; cbn in L1; [lia|cbn; congruence]).
      rewrite last_pscale. intros E. apply Rmult_integral in E as [E|E]; [|tauto].
      apply Rmult_integral in E. pose proof (ca_neq (S k)). tauto.
    + intros x. rewrite tab_step0, E0, E1, !peval_padd. cbn [peval]. rewrite !peval_pscale. ring.
Qed.

(** sum over i < q of a i * column (n+i) *)
Fixpoint comb (a : nat -> R) (g : nat -> R) (q : nat) : R :=
  match q with O => 0 | S q' => comb a g q' + a q' * g q' end.

Lemma comb_poly a n q : exists l, (length l <= n + q)%nat /\
  forall x, comb a (fun i => ftab f (n + i) 0 (al * x + bt)) q = peval l x.
Proof.
  induction q as [|q (l & Hl & E)].
  - exists []. split; [cbn; lia|]. reflexivity.
  - destruct (col_poly (n + q)) as (c & Hc & _ & Ec).
    exists (padd l (pscale (a q) c)). split.
    + rewrite padd_length, pscale_length. lia.
    + intros x. cbn [comb]. rewrite E, Ec, peval_padd, peval_pscale. ring.
Qed.

Lemma independent a n g q : (length g <= n)%nat -> forall rs, NoDup rs -> (n + q <= length rs)%nat ->
  (forall x, In x rs -> comb a (fun i => ftab f (n + i) 0 (al * x + bt)) q = peval g x) ->
  forall i, (i < q)%nat -> a i = 0.
Proof.
  intros Hg. induction q as [|q IH]; intros rs Hnd Hlen Heq; [lia|].
  assert (Hq : a q = 0).
  { destruct (Req_dec (a q) 0) as [E|Hne]; [exact E|exfalso].
    destruct (comb_poly a n q) as (l & Hl & El). destruct (col_poly (n + q)) as (c & Lc & Nc & Ec).
    pose (p := padd (pscale (a q) c) (padd l (pscale (-1) g))).
    assert (Hroots : (length rs <= n + q)%nat).
    { apply (roots (n + q) p).
      - unfold p. rewrite !padd_length, !pscale_length. lia.
      - unfold p. rewrite last_padd by (rewrite padd_length, !pscale_length; lia).
        rewrite last_pscale. intros E. apply Rmult_integral in E. tauto.
      - exact Hnd.
      - intros x Hx. unfold p. rewrite !peval_padd, !peval_pscale, <- El, <- Ec.
        specialize (Heq x Hx). cbn [comb] in Heq. lra. }
    lia. }
  intros i Hi. destruct (Nat.eq_dec i q) as [->|Hne]; [exact Hq|].
  apply (IH rs Hnd); [lia| |lia]. intros x Hx. rewrite <- (Heq x Hx). cbn [comb]. rewrite Hq. ring.
Qed.
End Col.

Lemma in_nC_seq n k : in_nC (map Z.of_nat (seq 0 n)) k = (k <? n)%nat.
Proof.
  apply eq_true_iff_eq. rewrite in_nC_spec, Nat.ltb_lt, in_map_iff. split.
  - intros (i & E & Hi). apply in_seq in Hi. lia.
  - intros Hk. exists k. split; [reflexivity|]. apply in_seq. lia.
Qed.

Lemma filter_none {X} (p : X -> bool) l : (forall x, In x l -> p x = false) -> filter p l = [].
Proof.
  induction l as [|x l IH]; intros H; [reflexivity|]. cbn. rewrite (H x (or_introl eq_refl)).
  apply IH. intros; apply H; right; assumption.
Qed.
Lemma filter_all {X} (p : X -> bool) l : (forall x, In x l -> p x = true) -> filter p l = l.
Proof.
  induction l as [|x l IH]; intros H; [reflexivity|]. cbn. rewrite (H x (or_introl eq_refl)). f_equal.
  apply IH. intros; apply H; right; assumption.
Qed.
Lemma keptc_first n m : (n <= m)%nat -> keptc (map Z.of_nat (seq 0 n)) m = seq n (m - n).
Proof.
  intros Hn. unfold keptc. replace m with (n + (m - n))%nat at 1 by lia.
  rewrite seq_app, filter_app, filter_none, filter_all.
  - reflexivity.
  - intros k Hk. apply in_seq in Hk. rewrite in_nC_seq. destruct (Nat.ltb_spec k n); [lia|reflexivity].
  - intros k Hk. apply in_seq in Hk. rewrite in_nC_seq. destruct (Nat.ltb_spec k n); [reflexivity|lia].
Qed.
Lemma valid_first n m : (n <= m)%nat -> valid_nC (map Z.of_nat (seq 0 n)) m.
Proof.
  intros Hn. split.
  - apply FinFun.Injective_map_NoDup; [intros a b; lia|apply seq_NoDup].
  - intros i Hi. apply in_map_iff in Hi as (k & <- & Hk). apply in_seq in Hk. lia.
Qed.

Lemma poly_at_peval b x : poly_at b x = peval b x.
Proof. induction b as [|c b IH]; cbn; [reflexivity|]. rewrite IH. reflexivity. Qed.

Lemma comb_shift a g q : comb a g (S q) = a 0%nat * g 0%nat + comb (fun i => a (S i)) (fun i => g (S i)) q.
Proof. induction q as [|q IH]; cbn [comb] in *; [ring|]. rewrite IH. ring. Qed.
Lemma comb_ext a g h q : (forall i, (i < q)%nat -> g i = h i) -> comb a g q = comb a h q.
Proof.
  intros H. induction q as [|q IH]; cbn [comb]; [reflexivity|].
  rewrite IH by (intros; apply H; lia). rewrite H by lia. reflexivity.
Qed.
Lemma row_comb_seq a (g : nat -> R) n q : row_comb a (map g (seq n q)) = comb a (fun i => g (n + i)%nat) q.
Proof.
  revert a n; induction q as [|q IH]; intros a n; [reflexivity|].
  cbn [seq map row_comb]. rewrite IH, comb_shift. rewrite Nat.add_0_r. f_equal.
  apply comb_ext. intros i _. f_equal. lia.
Qed.

Definition slope (f : fam) (x0 xf : R) : R := match f with CP | LeP => 2 / (xf - x0) | _ => 1 end.
Definition offset (f : fam) (x0 xf : R) : R := match f with CP | LeP => -1 - 2 * x0 / (xf - x0) | _ => 0 end.
Lemma zmap_affine f x0 xf x : f <> FS -> x0 <> xf -> zmap f x0 xf x = slope f x0 xf * x + offset f x0 xf.
Proof. intros Hf Hx. destruct f; cbn; try congruence; field; lra. Qed.

Lemma c58 be f x0 xf n m xs (a : nat -> R) (b : list R) : f <> FS -> x0 <> xf ->
  (n <= m)%nat -> (1 <= m)%nat -> NoDup xs -> (m <= length xs)%nat -> (length b <= n)%nat ->
  exists M, H1 be f x0 xf (map Z.of_nat (seq 0 n)) m xs 0 false = Some M /\
  ((forall j x row, nth_error xs j = Some x -> nth_error (md M) j = Some row -> row_comb a row = poly_at b x) ->
   forall i, (i < m - n)%nat -> a i = 0).
Proof.
  intros Hf Hx Hn Hm Hnd Hlen Hb. eexists. split; [apply H1_part; [exact Hm|apply valid_first, Hn]|].
  intros Heq.
  apply (independent f (slope f x0 xf) (offset f x0 xf) Hf) with (n := n) (g := b) (rs := xs);
    [|exact Hb|exact Hnd|lia|].
  - destruct f; cbn; try congruence; try lra;
    (apply Rmult_integral_contrapositive_currified; [lra|apply Rinv_neq_0_compat; lra]).
  - intros x Hin. apply In_nth_error in Hin as (j & Hj).
    set (B := fam_init ROps RFun f x0 xf (map Z.of_nat (seq 0 n)) m) in *.
    assert (E : row_comb a (map (fun k => col f k 0 ((x - b_x0 B) * b_c B + b_z0 B) * b_c B ^ 0)
                 (keptc (b_nC B) (b_m B))) = poly_at b x).
    { apply (Heq j x _ Hj). cbn [md part_mat]. rewrite nth_error_map, Hj. reflexivity. }
    unfold B in E.
    rewrite fam_init_m, fam_init_nC, keptc_first, row_comb_seq, poly_at_peval in E by exact Hn.
    rewrite <- E. apply comb_ext. intros i Hi. rewrite zmap_ok by exact Hx.
    rewrite <- zmap_affine by assumption. cbn [pow]. rewrite Rmult_1_r.
    destruct f; try reflexivity. congruence.
Qed.
