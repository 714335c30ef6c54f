(** The multivariate class. *)
From Coq Require Import Reals Arith Lia Lra List Bool ZArith Permutation.
From Coquelicot Require Import Coquelicot.
From Verif Require Import Base ProofBase Numbers ModelBFPy ModelBFCpp ProofTab ProofBFPy ProofBFCpp SpecBasis
  ProofH ModelELM SpecELM ProofELM ModelND SpecND ProofND ProofND2 ModelNELM SpecNELM ProofNELM ProofNELM2
  ModelUtfc SpecUtfc ProofUtfc ModelMtfc SpecMtfc.
Import ListNotations.
Open Scope R_scope.

(** ** construction *)
Definition msetup be bs nC deg dim (x0 xf : list R) : option (nbasis (T:=R) * R * R) :=
  match bs with
  | ME _ =>
      nC <- mtfc_elm_nC nC ;;
      if (deg <? length nC)%nat then None
      else if existsb (fun i => Z.ltb i 0%Z) nC then None
      else B <- nelm_init ROps be x0 xf nC (deg + 1)%nat ;; Some (B, 0, 1)
  | MB f =>
      nC <- mtfc_prod_nC dim deg nC ;;
      zz <- nd_dom ROps RFun f ;;
      B <- nd_init ROps RFun be f x0 xf nC (deg + 1)%nat ;; Some (B, fst zz, snd zz)
  end.
Lemma mkm_inv be bs n nC deg dim x0 xf w b u : mkm be bs n nC deg dim x0 xf w b = Some u ->
  length n = dim /\ (Z.of_nat (natprod n) < 2147483648)%Z /\ length x0 = dim /\ length xf = dim /\
  exists B z0 zf z x, msetup be bs nC deg dim x0 xf = Some (B, z0, zf) /\
    mtfc_points ROps RFun bs n (Some x0) z0 zf (nb_c B) x0 = Some (z, x) /\
    u = Mtfc n (natprod n) dim be bs B w b z x.
Proof.
  unfold mkm, mtfc_init. destruct (Nat.eqb_spec (length n) dim) as [Hn|]; [|discriminate]. cbn [negb].
  destruct (Z.ltb_spec (Z.of_nat (natprod n)) 2147483648) as [Hp|]; [|discriminate]. cbn [negb].
  destruct (Nat.eqb_spec (length x0) dim) as [H0|]; [|discriminate].
  destruct (Nat.eqb_spec (length xf) dim) as [Hf|]; [|discriminate]. cbn [andb negb].
  change (match bs with
   | MB f => nC0 <- mtfc_prod_nC dim deg nC;; zz <- nd_dom ROps RFun f;;
             B <- nd_init ROps RFun be f x0 xf nC0 (deg + 1);; Some (B, fst zz, snd zz)
   | ME _ => nC0 <- mtfc_elm_nC nC;;
             (if (deg <? length nC0)%nat then None
              else if existsb (fun i : Z => (i <? 0)%Z) nC0 then None
              else B <- nelm_init ROps be x0 xf nC0 (deg + 1);; Some (B, o0 ROps, o1 ROps))
   end) with (msetup be bs nC deg dim x0 xf).
  destruct (msetup be bs nC deg dim x0 xf) as [[[B z0] zf]|]; [|discriminate]. cbn [bind].
  destruct (mtfc_points ROps RFun bs n (Some x0) z0 zf (nb_c B) x0) as [[z x]|] eqn:Ep; [|discriminate]. cbn [bind fst snd].
  intros H. apply some_inj in H. subst u.
  repeat (split; [assumption|]). exists B, z0, zf, z, x. repeat split. exact Ep.
Qed.

Lemma rows_shaped dim deg es M : mtfc_rows dim deg es = Some M -> shaped M dim (mc M).
Proof.
  unfold mtfc_rows. destruct (Nat.eqb_spec (length es) dim) as [Hl|]; [|discriminate].
  destruct (Z.ltb_spec (Z.of_nat deg) (nc_max es)); [discriminate|]. intros E. apply some_inj in E. subst M.
  repeat split; cbn [mr mc md].
  - rewrite map_length. exact Hl.
  - intros r Hr. apply in_map_iff in Hr as (e & <- & He). unfold ent_row.
    assert (Hmax : forall l acc e, In e l \/ (ent_max (ent_flat e) <= acc)%Z ->
      (ent_max (ent_flat e) <= fold_left (fun mx e => if Z.ltb mx (ent_max (ent_flat e)) then ent_max (ent_flat e) else mx) l acc)%Z).
    { clear. induction l as [|a l IH]; intros acc e H; cbn.
      - destruct H as [[]|H]; exact H.
      - apply IH. destruct H as [[->|H]|H]; [right|left; exact H|right].
        + destruct (Z.ltb_spec acc (ent_max (ent_flat e))); lia.
        + destruct (Z.ltb_spec acc (ent_max (ent_flat a))); lia. }
    specialize (Hmax es 0%Z e (or_introl He)). fold (nc_max es) in Hmax.
    rewrite app_length, repeat_length.
    destruct (ent_flat e) as [|z [|z' l]] eqn:Ee; cbn [ent_max] in Hmax.
    + cbn. lia.
    + rewrite map_length, seq_length. lia.
    + lia.
Qed.
Lemma prod_nC_shaped dim deg nC M : mtfc_prod_nC dim deg nC = Some M ->
  match nC with MJax2 M => shaped M dim (mc M) | _ => True end -> shaped M dim (mc M).
Proof.
  destruct nC as [z|l|M'|l|l]; cbn [mtfc_prod_nC]; try discriminate; try (intros H _; apply (rows_shaped _ _ _ _ H)).
  destruct (mr M' =? dim)%nat; [|discriminate]. intros H; apply some_inj in H; subst. auto.
Qed.
Lemma seq_valid n m : (Z.to_nat n <= m)%nat -> valid_nC (map Z.of_nat (seq 0 (Z.to_nat n))) m.
Proof.
  intros H. split.
  - apply FinFun.Injective_map_NoDup; [intros a b; apply Nat2Z.inj|apply seq_NoDup].
  - intros i Hi. apply in_map_iff in Hi as (k & <- & Hk%in_seq). lia.
Qed.
Lemma mapM_ent_int l : mapM ent_int (map EInt l) = Some l.
Proof. induction l as [|z l IH]; [reflexivity|]. cbn. rewrite IH. reflexivity. Qed.

Definition mB_ok bs (dim deg : nat) (x0 xf w b : list R) (nC : mnc_arg) (B : nbasis (T:=R)) : Prop :=
  match bs with
  | MB f => exists M, mtfc_prod_nC dim deg nC = Some M /\ n_args f dim x0 xf M (S deg) /\ nb_ok f dim x0 xf M (S deg) B
  | ME f => exists l, mtfc_elm_nC nC = Some l /\ ne_args dim (S deg) w b x0 xf /\ valid_nC l (S deg) /\
      (length l <= deg)%nat /\ ne_ok dim (S deg) x0 xf l B
  end.
Lemma msetup_ok be bs nC deg dim x0 xf w b B z0 zf : argsm bs nC deg dim x0 xf w b -> length x0 = dim -> length xf = dim ->
  msetup be bs nC deg dim x0 xf = Some (B, z0, zf) ->
  mB_ok bs dim deg x0 xf w b nC B /\
  match bs with MB f => z0 = nd_z0 f /\ zf = nd_zf f | ME _ => z0 = 0 /\ zf = 1 end.
Proof.
  intros [Hdim Ha] H0 Hf. destruct bs as [f|f]; cbn [msetup mB_ok].
  - destruct (mtfc_prod_nC dim deg nC) as [M|] eqn:EM; [|discriminate]. cbn [bind].
    destruct (nd_dom ROps RFun f) as [zz|] eqn:Ez; [|discriminate]. cbn [bind].
    assert (Hb : bounded f /\ zz = (nd_z0 f, nd_zf f)).
    { unfold bounded. destruct f; cbn in Ez; try discriminate; apply some_inj in Ez; subst zz; split; auto. }
    destruct Hb as [Hb ->].
    assert (Hargs : n_args f dim x0 xf M (S deg)).
    { split; [exact Hb|]. split; [exact Hdim|]. split; [lia|]. split; [exact H0|]. split; [exact Hf|].
      apply (prod_nC_shaped dim deg nC M EM Ha). }
    destruct (mkn_ok be _ _ _ _ _ _ Hargs) as (B' & EB & HB). unfold mkn in EB. rewrite Nat.add_1_r, EB. cbn [bind fst snd].
    intros E. apply some_inj in E. injection E as -> <- <-. split; [|split; reflexivity].
    exists M. auto.
  - destruct Ha as (Hw & Hbb & Hne & Hv). destruct (mtfc_elm_nC nC) as [l|] eqn:El; [|discriminate]. cbn [bind].
    destruct (Nat.ltb_spec deg (length l)) as [|Hl]; [discriminate|].
    destruct (existsb _ l); [discriminate|].
    assert (Hargs : ne_args dim (S deg) w b x0 xf) by (repeat split; assumption).
    assert (Hval : valid_nC l (S deg)).
    { destruct nC as [z|l'|M|es|es]; cbn in El.
      - apply some_inj in El. subst l. apply seq_valid. rewrite map_length, seq_length in Hl. lia.
      - apply some_inj in El. subst l'. exact Hv.
      - discriminate.
      - destruct Hv as (l' & -> & Hv). rewrite mapM_ent_int in El. apply some_inj in El. subst l'. exact Hv.
      - destruct (mapM ent_int es); discriminate. }
    destruct (nelm_init_ok be dim (S deg) w b x0 xf l Hargs (or_introl Hval)) as (B' & EB & HB).
    rewrite Nat.add_1_r, EB. cbn [bind]. intros E. apply some_inj in E. injection E as -> <- <-. split; [|split; reflexivity].
    exists l. repeat (split; [first [assumption|reflexivity]|]). exact HB.
Qed.

(** ** the matrices, column by column *)
Definition mcolf bs (dim deg : nat) (x0 xf w b : list R) (d v : list nat) (X : pt) : R :=
  match bs with
  | MB f => ndterm f x0 xf dim X d v
  | ME f => nent f dim (S deg) w b (nci x0 xf) d (hd 0%nat v) (fun i => (X i - nth i x0 0) * nci x0 xf i + 0)
  end.
Definition mmat bs dim deg x0 xf w b (K : list (list nat)) (d : list nat) (n : nat) (x : mat R) : mat R :=
  Mat n (length K) (map (fun j => map (fun v => mcolf bs dim deg x0 xf w b d v (xat x j)) K) (seq 0 n)).
Definition mK bs dim deg nC full : list (list nat) :=
  match bs with
  | MB _ => match mtfc_prod_nC dim deg nC with Some M => idxs dim (S deg) (md M) full | None => [] end
  | ME _ => match mtfc_elm_nC nC with Some l => map (fun k => [k]) (kk l (S deg) full) | None => [] end
  end.

Lemma stack_shaped (x : mat R) dim n : (1 <= dim)%nat -> shaped x dim n -> stack (md x) = Some x.
Proof.
  intros Hd (H1 & H2 & H3 & H4). unfold stack. destruct (md x) as [|r l] eqn:E; [cbn in H3; lia|].
  rewrite (proj2 (forallb_forall _ _)).
  - rewrite (H4 r (or_introl eq_refl)), H3. destruct x as [a c rows]. cbn in *. subst. reflexivity.
  - intros y Hy. rewrite (H4 y Hy), (H4 r (or_introl eq_refl)). apply Nat.eqb_refl.
Qed.

Lemma mtfc_H_ok jvpn be bs n nC deg dim x0 xf w b u d full N x : jvpn_ok jvpn ->
  mkm be bs n nC deg dim x0 xf w b = Some u -> argsm bs nC deg dim x0 xf w b -> canm be bs dim d -> shaped x dim N ->
  mtfc_H ROps RFun jvpn u (md x) d full = Some (mmat bs dim deg x0 xf w b (mK bs dim deg nC full) d N x) /\
  mtfc_num u full = length (mK bs dim deg nC full) /\ m_dim u = dim /\
  (be = Cpp -> mtfc_compiled ROps RFun u (md x) d full = Some (mmat bs dim deg x0 xf w b (mK bs dim deg nC full) d N x)).
Proof.
  intros Hj Hu Ha [Hd Hc] Hx. pose proof Ha as [Hdim _].
  apply mkm_inv in Hu as (HnL & _ & H0 & Hf & B & z0 & zf & z & xp & Es & Ep & ->).
  destruct (msetup_ok be bs nC deg dim x0 xf w b B z0 zf Ha H0 Hf Es) as [HB _].
  unfold mtfc_H. rewrite (stack_shaped x dim N Hdim Hx). cbn [bind m_basis m_B m_w m_b m_be mtfc_num m_dim].
  unfold mtfc_num. cbn [m_B].
  assert (Hhd : exists r l, md x = r :: l /\ length r = N).
  { destruct Hx as (H1 & H2 & H3 & H4). destruct (md x) as [|r l]; [cbn in H3; lia|]. exists r, l. split; [reflexivity|].
    apply H4. left. reflexivity. }
  destruct Hhd as (r & l0 & Er & HrN).
  destruct bs as [f|f]; cbn [mB_ok] in HB.
  - destruct HB as (M & EM & Hargs & HB). unfold mK. rewrite EM.
    assert (EH : nd_H ROps RFun be f B x d full = Some (nd_mat f dim x0 xf M (S deg) x d full)).
    { apply (Hn_ok be f dim x0 xf M (S deg) B x d full N Hargs HB Hx). right. lia. }
    assert (Emat : nd_mat f dim x0 xf M (S deg) x d full = mmat (MB f) dim deg x0 xf w b (idxs dim (S deg) (md M) full) d N x).
    { unfold nd_mat, mmat. destruct Hx as (_ & -> & _). reflexivity. }
    rewrite EH, Emat. split; [reflexivity|].
    pose proof (nbo_num _ _ _ _ _ _ _ HB full) as Hnum. split; [exact Hnum|]. split; [reflexivity|].
    intros ->. cbn [mtfc_compiled m_be m_basis m_B]. unfold mtfc_compiled. cbn [m_be m_basis m_B m_w m_b]. rewrite Er, HrN, <- Er.
    unfold mtfc_num. cbn [m_B]. change (if full then nb_numFull B else nb_num B) with (advertised B full).
    destruct (c15n f dim x0 xf M (S deg) N x d full (bnew (N * advertised B full)) Hargs Hx) as (B' & EB' & H15).
    assert (B' = B).
    { unfold msetup in Es. rewrite EM in Es. cbn [bind] in Es. destruct (nd_dom ROps RFun f); [|discriminate]. cbn [bind] in Es.
      unfold mkn in EB'. rewrite Nat.add_1_r, EB' in Es. cbn [bind] in Es. apply some_inj in Es. congruence. }
    subst B'. destruct (H15 eq_refl) as (M' & out' & EHn & Ex & Eb). rewrite Ex. cbn [bind]. rewrite Eb. cbn [bind].
    unfold SpecND.Hn in EHn. rewrite EH in EHn. apply some_inj in EHn. subst M'. rewrite Hnum, Emat. reflexivity.
  - destruct HB as (l & El & Hargs & Hval & Hl & HB). unfold mK. rewrite El.
    assert (Hs : nsupported be f (DTuple d)) by exact Hc.
    assert (Ht : be = Cpp -> ntab d f) by (intros ->; destruct f; cbn in *; trivial).
    assert (EH : nelm_H ROps RFun jvpn be f B w b x (DTuple d) full = Some (ne_mat f dim (S deg) w b x0 xf (kk l (S deg) full) d N x)).
    { destruct be; cbn [nelm_H].
      - apply (py_nelm_H_ok jvpn f dim (S deg) w b x0 xf l B (DTuple d) full N x); try assumption; [left; exact Hval|cbn; lia].
      - apply (cpp_nelm_H_ok f dim (S deg) w b x0 xf l B d full N x); try assumption; [left; exact Hval|lia]. }
    assert (Emat : ne_mat f dim (S deg) w b x0 xf (kk l (S deg) full) d N x =
       mmat (ME f) dim deg x0 xf w b (map (fun k => [k]) (kk l (S deg) full)) d N x).
    { unfold ne_mat, mmat. rewrite map_length. f_equal. apply map_ext. intros j. rewrite map_map. reflexivity. }
    rewrite EH, Emat. split; [reflexivity|].
    assert (Hnum : (if full then nb_numFull B else nb_num B) = length (kk l (S deg) full)).
    { destruct full; cbn [kk]; [rewrite (neo_full _ _ _ _ _ _ HB), seq_length; reflexivity|].
      rewrite (neo_num _ _ _ _ _ _ HB). symmetry. apply ne_valid_kept. left. exact Hval. }
    split; [rewrite map_length; exact Hnum|]. split; [reflexivity|].
    intros ->. unfold mtfc_compiled. cbn [m_be m_basis m_B m_w m_b]. rewrite Er, HrN, <- Er.
    unfold mtfc_num. cbn [m_B]. rewrite Hnum.
    destruct (cpp_nelm_nHint_ok f dim (S deg) w b x0 xf l B d full N (bof (concat (md x))) (fun i j => xat x j i)
     (bnew (N * length (kk l (S deg) full))) Hargs (or_introl Hval) HB (Ht eq_refl) ltac:(lia)) as (F & EF & HF).
    + intros i j Hi Hjn. apply (shaped_flat x dim N); assumption.
    + apply Nat.mul_comm.
    + unfold cpp_nelm_xla. rewrite EF. cbn [bind]. rewrite (buf_matrix_bmat F N _ _ (cols_bmat _ _ _ _ HF)). cbn [bind].
      rewrite <- Emat. unfold ne_mat. do 2 f_equal. apply map_ext. intros j.
      apply (map_seq_nth (fun k => nent f dim (S deg) w b (nci x0 xf) d k (zat x0 xf x j)) (kk l (S deg) full) 0%nat).
Qed.

Lemma mmat_shaped bs dim deg x0 xf w b K d n x : shaped (mmat bs dim deg x0 xf w b K d n x) n (length K).
Proof.
  repeat split; cbn [mr mc md mmat].
  - rewrite map_length. apply seq_length.
  - intros row Hr. apply in_map_iff in Hr as (j & <- & _). apply map_length.
Qed.
Lemma mmat_ent bs dim deg x0 xf w b K d n x j i : (j < n)%nat ->
  ment (mmat bs dim deg x0 xf w b K d n x) j i = option_map (fun v => mcolf bs dim deg x0 xf w b d v (xat x j)) (nth_error K i).
Proof.
  intros Hj. unfold ment, mmat. cbn [md]. rewrite nth_error_map_seq. destruct (Nat.ltb_spec j n); [|lia]. apply nth_error_map.
Qed.

(** ** mixed partials of the columns *)
Lemma mixed_ext d ks : forall (u u' w w' : pt -> R), (forall X, u X = u' X) -> (forall X, w X = w' X) ->
  mixed d ks u w -> mixed d ks u' w'.
Proof.
  induction ks as [|k ks' IH]; cbn; intros u u' w w' He Hw H.
  - intros X. rewrite <- Hw, <- He. apply H.
  - destruct H as (h & H1 & H2). exists h. split.
    + intros X. apply (is_derive_n_ext (fun t => u (upd X k t))); [intros; apply He|apply H1].
    + apply (IH h h _ _ (fun _ => eq_refl) Hw H2).
Qed.
Lemma mixed_on_all (U : pt -> Prop) d ks : (forall X, U X) -> forall f g, mixed_on U d ks f g -> mixed d ks f g.
Proof.
  intros HU. induction ks as [|k ks IH]; cbn; intros f g H.
  - intros X. apply H, HU.
  - destruct H as (h & H1 & H2). exists h. split; [intros X; apply H1, HU|apply IH, H2].
Qed.
Lemma nd_mixed f x0 xf dim d v ks : Permutation ks (seq 0 dim) ->
  mixed d ks (fun X => ndterm f x0 xf dim X (repeat 0%nat dim) v) (fun X => ndterm f x0 xf dim X d v).
Proof.
  intros Hp. eapply mixed_ext; [| |apply (oterm_mixed (fun k d t => ndcol f x0 xf k t d (nth k v 0%nat)) dim d
        (fun k d t => ndcol_deriv f x0 xf k (nth k v 0%nat) d t) ks (fun _ => 0%nat))].
  - intros X. unfold oterm, ndterm. apply prodn_ext. intros k Hk. rewrite nth_repeat. reflexivity.
  - intros X. unfold oterm, ndterm. apply prodn_ext. intros k Hk.
    rewrite (proj2 (existsb_exists (Nat.eqb k) ks)); [reflexivity|].
    exists k. split; [|apply Nat.eqb_refl]. apply (seq_perm_in ks dim k Hp), Hk.
  - eapply Permutation_NoDup; [apply Permutation_sym, Hp|apply seq_NoDup].
  - intros k Hk. split; [apply (seq_perm_in ks dim k Hp), Hk|reflexivity].
Qed.
Lemma lsum_zero n : list_sum (repeat 0%nat n) = 0%nat.
Proof. induction n as [|n IH]; [reflexivity|]. cbn [repeat]. rewrite lsum_cons, IH. reflexivity. Qed.
(** the coefficient and the neuron *)
Definition ncoef (dim m : nat) (w x0 xf : list R) (d : list nat) (k : nat) : R :=
  prodn dim (fun i => nci x0 xf i ^ nth i d 0%nat) * prodn dim (fun i => nth (i * m + k) w 0 ^ nth i d 0%nat).
Lemma mcolf_elm f dim deg x0 xf w b d v X : mcolf (ME f) dim deg x0 xf w b d v X =
  ncoef dim (S deg) w x0 xf d (hd 0%nat v) * nG f (list_sum d) (narg dim (S deg) w b x0 xf (hd 0%nat v) X).
Proof. unfold mcolf, nent. rewrite narg_nu. reflexivity. Qed.
Lemma ncoef_0 dim m w x0 xf k : ncoef dim m w x0 xf (repeat 0%nat dim) k = 1.
Proof.
  unfold ncoef. rewrite !prodn_1; [ring|intros; rewrite nth_repeat; reflexivity|intros; rewrite nth_repeat; reflexivity].
Qed.
Lemma ne_mixed f dim m w b x0 xf d k ks : f <> ReLU -> (length d <= dim)%nat -> Permutation ks (seq 0 dim) ->
  mixed d ks (fun X => nG f 0 (narg dim m w b x0 xf k X))
    (fun X => ncoef dim m w x0 xf d k * nG f (list_sum d) (narg dim m w b x0 xf k X)).
Proof.
  intros Hf Hd Hp. apply (mixed_on_all (smooth_at f dim m w b x0 xf k)).
  { intros X. apply smooth_at_iff. intros ->. congruence. }
  refine (mixed_on_ext _ _ _ _ _ _ _ _ eq_refl (mixed_nG f dim m w b x0 xf k d ks 1 0 _ _ _)).
  - intros X _. rewrite (lpr_perm _ _ _ _ Hp), (lsm_perm _ _ _ Hp), lpr_seq, lsm_seq by exact Hd.
    unfold nal, ncoef. rewrite (prodn_ext dim _ (fun i => nth (i * m + k) w 0 ^ nth i d 0%nat * nci x0 xf i ^ nth i d 0%nat))
      by (intros; apply Rpow_mult_distr). rewrite prodn_mul, Nat.add_0_l. ring.
  - intros i Hi. apply (seq_perm_in ks dim i Hp), Hi.
  - intros X _. ring.
Qed.
Lemma mcolf_mixed bs dim deg x0 xf w b d v ks : smoothm bs -> (length d <= dim)%nat -> Permutation ks (seq 0 dim) ->
  mixed d ks (mcolf bs dim deg x0 xf w b (repeat 0%nat dim) v) (mcolf bs dim deg x0 xf w b d v).
Proof.
  intros Hs Hd Hp. destruct bs as [f|f].
  - apply nd_mixed, Hp.
  - eapply mixed_ext; [| |apply (ne_mixed f dim (S deg) w b x0 xf d (hd 0%nat v) ks)]; try assumption.
    + intros X. rewrite mcolf_elm, ncoef_0, lsum_zero. ring.
    + intros X. rewrite mcolf_elm. reflexivity.
    + intros ->. apply Hs. reflexivity.
Qed.
Lemma mcolf_ext bs dim deg x0 xf w b d v X Y : (forall i, (i < dim)%nat -> X i = Y i) ->
  mcolf bs dim deg x0 xf w b d v X = mcolf bs dim deg x0 xf w b d v Y.
Proof.
  intros H. destruct bs as [f|f]; cbn [mcolf].
  - unfold ndterm. apply prodn_ext. intros i Hi. rewrite H by exact Hi. reflexivity.
  - unfold nent. f_equal. f_equal. unfold nu. f_equal. apply sumn_ext. intros i Hi. rewrite H by exact Hi. reflexivity.
Qed.

(** ** C25 *)
Lemma map_const_repeat (F : nat -> nat) s n : (forall k, (s <= k)%nat -> F k = 0%nat) -> map F (seq s n) = repeat 0%nat n.
Proof.
  revert s; induction n as [|n IH]; intros s H; [reflexivity|]. cbn. rewrite H, IH by (intros; try apply H; lia). reflexivity.
Qed.
Lemma named_orders m dim : (needs m <= dim)%nat -> mmeth_orders m dim = Some (map (times m) (seq 0 dim)).
Proof.
  intros H. destruct m; cbn [needs] in H; cbn [mmeth_orders]; unfold at_k.
  - f_equal. symmetry. apply map_const_repeat. intros k _. reflexivity.
  - f_equal. apply map_ext. intros [|[|[|k]]]; reflexivity.
  - f_equal. apply map_ext. intros [|[|[|k]]]; reflexivity.
  - f_equal. apply map_ext. intros [|[|[|k]]]; reflexivity.
  - destruct dim as [|[|n]]; [lia|lia|]. cbn. rewrite map_const_repeat; [reflexivity|]. intros [|[|k]]; cbn; [lia|lia|reflexivity].
  - f_equal. apply map_ext. intros [|[|[|k]]]; reflexivity.
  - destruct dim as [|[|n]]; [lia|lia|]. cbn. rewrite map_const_repeat; [reflexivity|]. intros [|[|k]]; cbn; [lia|lia|reflexivity].
  - f_equal. apply map_ext. intros [|[|[|k]]]; reflexivity.
Qed.
Lemma times_sum m dim : (list_sum (map (times m) (seq 0 dim)) <= 3)%nat.
Proof.
  destruct dim as [|[|[|n]]].
  - cbn. lia.
  - destruct m; cbn; lia.
  - destruct m; cbn; lia.
  - cbn [seq map]. rewrite map_const_repeat by (intros [|[|[|k]]]; try lia; destruct m; reflexivity).
    rewrite !lsum_cons, lsum_zero. destruct m; cbn; lia.
Qed.
Lemma canm_small be bs dim d : smoothm bs -> length d = dim -> (list_sum d <= 8)%nat -> canm be bs dim d.
Proof.
  intros Hs Hl Hd. split; [exact Hl|]. destruct bs as [f|f]; [exact I|]. destruct be, f; cbn; trivial; try exact Hd.
  exfalso. apply Hs. reflexivity.
Qed.
Lemma one_point_shaped dim X : shaped (one_point dim X) dim 1.
Proof.
  repeat split; cbn.
  - rewrite map_length. apply seq_length.
  - intros row Hr. apply in_map_iff in Hr as (k & <- & _). reflexivity.
Qed.
Lemma one_point_xat dim X i : (i < dim)%nat -> xat (one_point dim X) 0 i = X i.
Proof.
  intros Hi. apply (at_col_xat (one_point dim X) 0 dim X i); [|exact Hi]. intros k Hk. unfold ment, one_point. cbn [md].
  rewrite nth_error_map_seq. destruct (Nat.ltb_spec k dim); [reflexivity|lia].
Qed.

Section Mtfc.
Variable jvpn : (list R -> R) -> list R -> list R -> R.
Hypothesis Hj : jvpn_ok jvpn.
Variables (be : backend) (bs : mbasis) (n : list nat) (nC : mnc_arg) (deg dim : nat) (x0 xf w b : list R) (u : mtfc (T:=R)).
Hypothesis Hu : mkm be bs n nC deg dim x0 xf w b = Some u.
Hypothesis Ha : argsm bs nC deg dim x0 xf w b.
Let K := mK bs dim deg nC.
Let col := mcolf bs dim deg x0 xf w b.

Lemma mnum full : mtfc_num u full = length (K full).
Proof.
  pose proof Hu as Hi. apply mkm_inv in Hi as (_ & _ & H0 & Hf & B & z0 & zf & z & x & Es & _ & ->).
  destruct (msetup_ok be bs nC deg dim x0 xf w b B z0 zf Ha H0 Hf Es) as [HB _]. unfold mtfc_num, K, mK. cbn [m_B].
  destruct bs as [f|f]; cbn [mB_ok] in HB.
  - destruct HB as (M & -> & Hargs & HB). apply (nbo_num _ _ _ _ _ _ _ HB full).
  - destruct HB as (l & -> & _ & Hval & _ & HB). rewrite map_length. destruct full; cbn [kk].
    + rewrite (neo_full _ _ _ _ _ _ HB), seq_length. reflexivity.
    + rewrite (neo_num _ _ _ _ _ _ HB). symmetry. apply ne_valid_kept. left. exact Hval.
Qed.
Lemma mdim : m_dim u = dim.
Proof. pose proof Hu as Hi. apply mkm_inv in Hi as (_ & _ & H0 & Hf & B & z0 & zf & z & x & Es & _ & ->). reflexivity. Qed.
Lemma mH d full N x : canm be bs dim d -> shaped x dim N ->
  mtfc_H ROps RFun jvpn u (md x) d full = Some (mmat bs dim deg x0 xf w b (K full) d N x).
Proof. intros Hc Hx. apply (mtfc_H_ok jvpn be bs n nC deg dim x0 xf w b u d full N x Hj Hu Ha Hc Hx). Qed.

Lemma m_partials full i d : smoothm bs -> canm be bs dim d -> (i < mtfc_num u full)%nat -> exists y g : pt -> R,
  (forall X, exists M0, mtfc_H ROps RFun jvpn u (md (one_point dim X)) (repeat 0%nat dim) full = Some M0 /\ ment M0 0 i = Some (y X)) /\
  (forall ks, Permutation ks (seq 0 dim) -> mixed d ks y g) /\
  forall N x j X, shaped x dim N -> (j < N)%nat -> at_col x j dim X ->
    exists M, mtfc_H ROps RFun jvpn u (md x) d full = Some M /\ shaped M N (mtfc_num u full) /\ ment M j i = Some (g X).
Proof.
  intros Hs Hc Hi. rewrite mnum in *. set (v := nth i (K full) []).
  assert (Hv : nth_error (K full) i = Some v) by (apply nth_error_nth'; exact Hi).
  exists (col (repeat 0%nat dim) v), (col d v). split; [|split].
  - intros X. eexists. split; [apply (mH _ _ 1)|].
    + apply canm_small; [exact Hs|apply repeat_length|rewrite lsum_zero; lia].
    + apply one_point_shaped.
    + rewrite mmat_ent by lia. rewrite Hv. cbn [option_map]. f_equal. apply mcolf_ext. intros k Hk. apply one_point_xat, Hk.
  - intros ks Hp. apply mcolf_mixed; [exact Hs|rewrite (proj1 Hc); lia|exact Hp].
  - intros N x j X Hx Hjn HX. eexists. split; [apply (mH _ _ N); assumption|]. split; [apply mmat_shaped|].
    rewrite mmat_ent by exact Hjn. rewrite Hv. cbn [option_map]. f_equal. apply mcolf_ext. intros k Hk.
    apply (at_col_xat x j dim X k HX Hk).
Qed.
Lemma c25 m full i : smoothm bs -> (needs m <= dim)%nat -> (i < mtfc_num u full)%nat -> exists y g : pt -> R,
  (forall X, exists M0, mtfc_call ROps RFun jvpn u mmH (md (one_point dim X)) full = Some M0 /\ ment M0 0 i = Some (y X)) /\
  (forall ks, Permutation ks (seq 0 dim) -> mixed (map (times m) (seq 0 dim)) ks y g) /\
  forall N x j X, shaped x dim N -> (j < N)%nat -> at_col x j dim X ->
    exists M, mtfc_call ROps RFun jvpn u m (md x) full = Some M /\ shaped M N (mtfc_num u full) /\ ment M j i = Some (g X).
Proof.
  intros Hs Hm Hi. unfold mtfc_call. rewrite mdim. rewrite (named_orders m dim Hm). cbn [mmeth_orders bind].
  apply m_partials; try assumption. apply canm_small; [exact Hs|rewrite map_length; apply seq_length|].
  pose proof (times_sum m dim). lia.
Qed.
End Mtfc.
Lemma c25_fail jvpn (u : mtfc (T:=R)) m xs full : m_dim u = 1%nat -> m = mmHxy \/ m = mmHx2y ->
  mtfc_call ROps RFun jvpn u m xs full = None.
Proof. intros Hd [-> | ->]; unfold mtfc_call; rewrite Hd; reflexivity. Qed.
Lemma c25_silent jvpn (u : mtfc (T:=R)) m xs full : (m_dim u < needs m)%nat -> m = mmHy \/ m = mmHy2 \/ m = mmHz ->
  mtfc_call ROps RFun jvpn u m xs full = mtfc_call ROps RFun jvpn u mmH xs full.
Proof.
  intros Hd Hm. unfold mtfc_call.
  assert (E : mmeth_orders m (m_dim u) = mmeth_orders mmH (m_dim u)).
  { destruct Hm as [-> |[-> | ->]]; cbn [needs] in Hd; destruct (m_dim u) as [|[|[|k]]]; try lia; reflexivity. }
  rewrite E. reflexivity.
Qed.
