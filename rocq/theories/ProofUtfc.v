(** Proofs about the univariate class. *)
From Coq Require Import Reals Arith Lia Lra List Bool ZArith Sorted.
From Coquelicot Require Import Coquelicot.
From Verif Require Import Base ProofBase Numbers ModelBFPy ModelBFCpp ProofTab ProofBFPy ProofBFCpp SpecBasis ProofH
  ModelELM SpecELM ProofELM ModelUtfc SpecUtfc.
Import ListNotations.
Open Scope R_scope.

(** ** the constructor *)
Definition ubase (bs : ubasis) (x0 xf : R) (nC : list Z) (m : nat) : basis (T:=R) :=
  match bs with UB f => fam_init ROps RFun f x0 xf nC m | UE _ => elm_init ROps x0 xf nC m end.
Definition uz0 (bs : ubasis) : R := match bs with UB FS => - PI | UB _ => Ropp 1 | UE _ => 0 end.
Definition uzf (bs : ubasis) : R := match bs with UB FS => PI | UB _ => 1 | UE _ => 1 end.

Lemma mk_inv be bs N nC deg x0 xf w b u : mk be bs N nC deg x0 xf w b = Some u ->
  exists l z x, utfc_nC nC = Some l /\ (length l <= deg)%nat /\ (forall i, In i l -> (0 <= i)%Z) /\ offered bs /\
   utfc_points ROps RFun bs N (uz0 bs) (uzf bs) (b_c (ubase bs x0 xf l (S deg))) x0 = Some (z, x) /\
   u = Utfc N be bs (ubase bs x0 xf l (S deg)) w b z x.
Proof.
  unfold mk, utfc_init. destruct (utfc_nC nC) as [l|]; cbn [bind]; [|discriminate].
  destruct (Nat.ltb_spec deg (length l)) as [|Hl]; [discriminate|].
  destruct (existsb _ l) eqn:Ex; [discriminate|].
  replace (deg + 1)%nat with (S deg) by lia. intros H.
  exists l.
  assert (Hpos : forall i, In i l -> (0 <= i)%Z).
  { intros i Hi. destruct (Z.ltb_spec i 0) as [Hn|]; [|lia].
    assert (existsb (fun i => Z.ltb i 0) l = true); [|congruence].
    apply existsb_exists. exists i. split; [exact Hi|]. apply Z.ltb_lt, Hn. }
  destruct bs as [[]|f]; cbn [bind] in H; try discriminate;
    match type of H with (zx <- ?p ;; _) = _ => destruct p as [[z x]|] eqn:Ep; cbn [bind] in H; [|discriminate] end;
    apply some_inj in H; subst u; exists z, x; repeat split; try exact Hl; try exact Hpos; try exact Ep; cbn; auto.
Qed.

Lemma mk_some be bs N nC l deg x0 xf w b : utfc_nC nC = Some l -> (length l <= deg)%nat ->
  (forall i, In i l -> (0 <= i)%Z) -> offered bs -> (2 <= N)%nat ->
  exists u, mk be bs N nC deg x0 xf w b = Some u.
Proof.
  intros E Hl Hp Ho HN. unfold mk, utfc_init. rewrite E; cbn [bind].
  destruct (Nat.ltb_spec deg (length l)); [lia|].
  destruct (existsb (fun i => Z.ltb i 0) l) eqn:Ex.
  - apply existsb_exists in Ex as (i & Hi & Hn). apply Z.ltb_lt in Hn. specialize (Hp i Hi). lia.
  - assert (HP : forall z0 zf c x0, exists z x, utfc_points ROps RFun bs N z0 zf c x0 = Some (z, x)).
    { intros. unfold utfc_points. destruct N as [|[|n]]; [lia|lia|].
      destruct bs as [[]|f]; cbn [bind]; eexists; eexists; reflexivity. }
    destruct bs as [[]|f]; cbn [offered] in Ho; try (exfalso; intuition discriminate);
      cbn [bind]; edestruct HP as (z & x & Ez); rewrite Ez; cbn [bind]; eexists; reflexivity.
Qed.

Lemma ubase_m bs x0 xf l m : b_m (ubase bs x0 xf l m) = m.
Proof. destruct bs; cbn; [apply fam_init_m|reflexivity]. Qed.
Lemma ubase_nC bs x0 xf l m : b_nC (ubase bs x0 xf l m) = l.
Proof. destruct bs; cbn; [apply fam_init_nC|reflexivity]. Qed.

(** ** matrices *)
Definition ucol (bs : ubasis) (w b : list R) : nat -> nat -> R -> R :=
  match bs with UB f => col f | UE f => gcol f w b end.

Section Mats.
Context (jvp : (R -> R) -> R -> R -> R) (Hj : jvp_ok jvp).
Local Notation uH := (utfc_H ROps RFun jvp).

Lemma uH_full be bs N nC deg x0 xf w b u xs d : mk be bs N nC deg x0 xf w b = Some u ->
  can be bs d -> weights_fit bs deg w b ->
  uH u xs d true = Some (full_mat (u_B u) (ucol bs w b) xs d).
Proof.
  intros Hu Hc Hw. apply mk_inv in Hu as (l & z & x & _ & _ & _ & _ & _ & ->).
  unfold utfc_H. cbn [u_be u_basis u_B u_w u_b]. destruct bs as [f|f]; cbn [ubase ucol].
  - pose proof (H1_full be f x0 xf l (S deg) xs d ltac:(lia)) as H.
    destruct be; exact H.
  - destruct Hw as [Hw Hb]. pose proof (HE_any_full jvp be f w b x0 xf l xs d Hj Hc ltac:(lia)) as H.
    rewrite Hw in H. unfold HE in H. rewrite Hw in H. destruct be; exact H.
Qed.

Lemma uH_part be bs N nC deg x0 xf w b u xs d : mk be bs N nC deg x0 xf w b = Some u ->
  can be bs d -> weights_fit bs deg w b -> valid_nC (b_nC (u_B u)) (S deg) ->
  uH u xs d false = Some (part_mat (u_B u) (ucol bs w b) xs d).
Proof.
  intros Hu Hc Hw Hv. apply mk_inv in Hu as (l & z & x & _ & _ & _ & _ & _ & ->).
  cbn [u_B] in Hv. rewrite ubase_nC in Hv.
  unfold utfc_H. cbn [u_be u_basis u_B u_w u_b]. destruct bs as [f|f]; cbn [ubase ucol].
  - pose proof (H1_part be f x0 xf l (S deg) xs d ltac:(lia) Hv) as H.
    destruct be; exact H.
  - destruct Hw as [Hw Hb].
    pose proof (HE_any_part jvp be f w b x0 xf l xs d Hj Hc ltac:(lia)) as H.
    rewrite Hw in H. specialize (H Hv). unfold HE in H. rewrite Hw in H. destruct be; exact H.
Qed.

(** ** C14 *)
Lemma buf_matrix_shape {T} (F : buf T) n c rows : buf_matrix F n c = Some rows -> shaped (Mat n c rows) n c.
Proof.
  unfold buf_matrix. intros H. repeat split; cbn [md].
  - apply mapM_length in H. rewrite H. apply seq_length.
  - intros row Hr. destruct (In_nth_error _ _ Hr) as (j & Ej).
    revert H Ej Hr. generalize (seq 0 n) as js. revert j rows.
    intros j rows js; revert j rows; induction js as [|a js IH]; intros j rows H Ej Hr; cbn in H.
    + apply some_inj in H; subst rows. destruct Hr.
    + destruct (mapM (fun k => brd F (c * a + k)) (seq 0 c)) as [r0|] eqn:E0; cbn [bind] in H; [|discriminate].
      destruct (mapM _ js) as [rs|] eqn:Es; cbn [bind] in H; [|discriminate].
      apply some_inj in H; subst rows. destruct Hr as [<-|Hr].
      * apply mapM_length in E0. rewrite E0. apply seq_length.
      * destruct (In_nth_error _ _ Hr) as (j' & Ej'). apply (IH j' rs eq_refl Ej' Hr).
Qed.

Lemma cpp_H_with_shape hint (B : basis (T:=R)) xs d full M :
  cpp_H_mat_with hint B xs d full = Some M ->
  shaped M (length xs) (if full then b_m B else b_m B - length (b_nC B))%nat.
Proof.
  unfold cpp_H_mat_with. destruct (cpp_H_with ROps hint B (bof xs) (length xs) d full) as [[[n mo] F]|] eqn:E;
    cbn [bind]; [|discriminate].
  unfold cpp_H_with in E. destruct (_ && _)%bool; [discriminate|].
  destruct (cpp_map_points _ _ _ _); cbn [bind] in E; [|discriminate].
  destruct (hint _ _ _ _); cbn [bind] in E; [|discriminate].
  destruct (cpp_emit _ _ _ _ _ _ _ _ _); cbn [bind] in E; [|discriminate].
  apply some_inj in E. injection E as <- <- <-.
  destruct (buf_matrix _ _ _) as [rows|] eqn:Eb; cbn [bind]; [|discriminate].
  intros H; apply some_inj in H; subst M. apply buf_matrix_shape in Eb. exact Eb.
Qed.

Lemma c14_utfc bs N nC deg x0 xf w b u xs d full M : mk Cpp bs N nC deg x0 xf w b = Some u ->
  uH u xs d full = Some M ->
  exists s, utfc_abstract u [length xs] full = Some s /\ has_shape M s.
Proof.
  intros Hu HM. apply mk_inv in Hu as (l & z & x & _ & _ & _ & _ & _ & ->).
  unfold utfc_abstract. cbn [u_be u_B]. eexists; split; [reflexivity|].
  eexists; eexists; split; [reflexivity|].
  unfold utfc_H in HM. cbn [u_be u_basis u_B u_w u_b] in HM. destruct bs as [f|f]; cbn [ubase] in *.
  - rewrite cpp_H_mat_eq in HM. apply cpp_H_with_shape in HM. exact HM.
  - rewrite cpp_elm_H_eq in HM. apply cpp_H_with_shape in HM. exact HM.
Qed.


(** ** C26 *)
Lemma seq_doc n i : In i (map Z.of_nat (seq 0 (Z.to_nat n))) <-> (0 <= i < n)%Z.
Proof.
  rewrite in_map_iff. split.
  - intros (k & <- & Hk). apply in_seq in Hk. lia.
  - intros H. exists (Z.to_nat i). split; [lia|]. apply in_seq. lia.
Qed.

Lemma doc_list nC l removed : documented nC removed -> utfc_nC nC = Some l -> forall i, removed i <-> In i l.
Proof.
  destruct nC; cbn; intros Hd E; try (apply some_inj in E; subst l; try exact Hd); try discriminate.
  intros i. rewrite Hd, seq_doc. reflexivity.
Qed.

Lemma removed_ext m l l' (M Mc : mat R) : (forall i, In i l <-> In i l') ->
  columns_removed m l M Mc -> columns_removed m l' M Mc.
Proof.
  intros Hl (kept & Hs & Hk & Hsh & He). exists kept. split; [exact Hs|]. split; [|split; assumption].
  intros k. rewrite Hk, Hl. reflexivity.
Qed.

Lemma c26_accept be bs N nC deg x0 xf w b l : offered bs -> (2 <= N)%nat -> utfc_nC nC = Some l ->
  (length l <= deg)%nat -> valid_nC l (S deg) -> weights_fit bs deg w b ->
  exists u, mk be bs N nC deg x0 xf w b = Some u /\
  forall xs d, can be bs d -> exists M Mc, uH u xs d true = Some M /\ uH u xs d false = Some Mc /\
    columns_removed (S deg) l M Mc /\ mc Mc = (S deg - length l)%nat.
Proof.
  intros Ho HN El Hl Hv Hw.
  destruct (mk_some be bs N nC l deg x0 xf w b El Hl ltac:(intros i Hi; apply Hv in Hi; lia) Ho HN) as (u & Hu).
  exists u. split; [exact Hu|]. intros xs d Hc.
  pose proof (mk_inv _ _ _ _ _ _ _ _ _ _ Hu) as (l' & z & x & El' & _ & _ & _ & _ & Eu).
  assert (l' = l) by congruence. subst l'.
  assert (EnC : b_nC (u_B u) = l) by (rewrite Eu; cbn [u_B]; apply ubase_nC).
  assert (Em : b_m (u_B u) = S deg) by (rewrite Eu; cbn [u_B]; apply ubase_m).
  eexists; eexists. split; [eapply uH_full; eassumption|]. split; [eapply uH_part; try eassumption; rewrite EnC; exact Hv|].
  split.
  - pose proof (part_mat_removed (u_B u) (ucol bs w b) xs d) as H. rewrite EnC, Em in H. exact H.
  - cbn [mc part_mat]. rewrite EnC, Em. apply keptc_length, Hv.
Qed.

Lemma c26_reject be bs N nC deg x0 xf w b :
  (match nC with
   | NcInt n => (Z.of_nat deg < n)%Z
   | NcJax l | NcList l => (deg < length l)%nat \/ exists i, In i l /\ (i < 0)%Z
   | NcNumpy _ => False end) -> mk be bs N nC deg x0 xf w b = None.
Proof.
  intros H. destruct (mk be bs N nC deg x0 xf w b) as [u|] eqn:Hu; [|reflexivity]. exfalso.
  apply mk_inv in Hu as (l & z & x & El & Hl & Hp & _).
  destruct nC; cbn in El; try discriminate; apply some_inj in El; subst l.
  - rewrite map_length, seq_length in Hl. lia.
  - destruct H as [H|(i & Hi & Hn)]; [lia|]. specialize (Hp i Hi). lia.
  - destruct H as [H|(i & Hi & Hn)]; [lia|]. specialize (Hp i Hi). lia.
Qed.

(** ** C27 *)
Lemma nonzero_R t : nonzero ROps RFun t = true <-> t <> 0.
Proof.
  unfold nonzero. cbn [RFun fgt0 ROps oopp]. destruct (Rlt_dec 0 t); destruct (Rlt_dec 0 (- t)); cbn; split; intros; try lra; try reflexivity.
Qed.

Lemma c27_shape u xs dx d full M M1 : length dx = length xs -> (exists t, In t dx /\ t <> 0) ->
  uH u xs d full = Some M -> uH u xs (d + 1) full = Some M1 -> shaped M1 (length xs) (mc M1) ->
  exists out, utfc_jvp ROps RFun jvp u xs dx d full = Some (M, out) /\
    shaped out (length xs) (mc M1) /\
    forall j k, ment out j k = match nth_error dx j, ment M1 j k with Some t, Some v => Some (v * t) | _, _ => None end.
Proof.
  intros Hl (t & Ht & Hn) HM HM1 (Hr & _ & Hlen & Hrow). unfold utfc_jvp.
  assert (Ex : existsb (nonzero ROps RFun) dx = true).
  { apply existsb_exists. exists t. split; [exact Ht|]. apply nonzero_R, Hn. }
  rewrite Ex, HM1; cbn [bind]. unfold scale_rows. rewrite Hr, <- Hl, Nat.eqb_refl; cbn [bind]. rewrite HM; cbn [bind].
  eexists; split; [reflexivity|]. split.
  - repeat split; cbn [mr mc md].
    + rewrite map_length, combine_length, Hlen, Hl. lia.
    + intros row Hin. apply in_map_iff in Hin as ([r t'] & <- & Hin). cbn [fst snd].
      rewrite map_length. apply Hrow. eapply in_combine_l, Hin.
  - intros j k. unfold ment. cbn [md]. rewrite nth_error_map.
    destruct (Nat.ltb_spec j (length dx)) as [Hj'|Hj'].
    + destruct (nth_error dx j) as [t'|] eqn:Et; [|apply nth_error_None in Et; lia].
      destruct (nth_error (md M1) j) as [r|] eqn:Er; [|apply nth_error_None in Er; lia].
      assert (Ec : nth_error (combine (md M1) dx) j = Some (r, t')).
      { clear - Et Er. revert dx j Et Er. induction (md M1) as [|r0 rs IH]; intros [|t0 dx] [|j] Et Er; cbn in *; try discriminate.
        - congruence.
        - apply IH; assumption. }
      rewrite Ec. cbn [option_map fst snd]. rewrite nth_error_map. destruct (nth_error r k); reflexivity.
    + assert (nth_error dx j = None) by (apply nth_error_None; lia). rewrite H.
      assert (nth_error (combine (md M1) dx) j = None) by (apply nth_error_None; rewrite combine_length; lia).
      rewrite H0. reflexivity.
Qed.

Definition gder (bs : ubasis) w b := forall k d z, is_derive (ucol bs w b k d) z (ucol bs w b k (S d) z).
Lemma gder_ok bs w b : smooth_basis bs -> gder bs w b.
Proof.
  intros Hs k d z. destruct bs as [f|f]; cbn [ucol]; [apply col_deriv|].
  destruct f; [exfalso; apply Hs; reflexivity|..]; apply ecol_deriv; discriminate.
Qed.

(** both kinds of matrix are [fun x => map (fun k => G k d (z x) * c ^ d) ks] row by row *)
Definition kmat (B : basis (T:=R)) (G : nat -> nat -> R -> R) (ks : list nat) (xs : list R) (d : nat) : mat R :=
  Mat (length xs) (length ks)
    (map (fun x => map (fun k => G k d ((x - b_x0 B) * b_c B + b_z0 B) * b_c B ^ d) ks) xs).
Lemma full_kmat B G xs d : full_mat B G xs d = kmat B G (seq 0 (b_m B)) xs d.
Proof. unfold full_mat, kmat. rewrite seq_length. reflexivity. Qed.
Lemma part_kmat B G xs d : part_mat B G xs d = kmat B G (keptc (b_nC B) (b_m B)) xs d.
Proof. reflexivity. Qed.
Definition uks (u : utfc (T:=R)) (full : bool) : list nat :=
  if full then seq 0 (b_m (u_B u)) else keptc (b_nC (u_B u)) (b_m (u_B u)).
Lemma kmat_ent B G ks xs d j i : ment (kmat B G ks xs d) j i =
  match nth_error xs j, nth_error ks i with
  | Some x, Some k => Some (G k d ((x - b_x0 B) * b_c B + b_z0 B) * b_c B ^ d)
  | _, _ => None end.
Proof.
  unfold ment, kmat. cbn [md]. rewrite nth_error_map. destruct (nth_error xs j) as [x|]; cbn [option_map]; [|reflexivity].
  rewrite nth_error_map. destruct (nth_error ks i); reflexivity.
Qed.
Lemma kmat_shaped B G ks xs d : shaped (kmat B G ks xs d) (length xs) (length ks).
Proof.
  repeat split; cbn [mr mc md kmat]; [apply map_length|].
  intros row Hr. apply in_map_iff in Hr as (x & <- & _). apply map_length.
Qed.

Lemma uH_k be bs N nC deg x0 xf w b u xs d full : mk be bs N nC deg x0 xf w b = Some u ->
  can be bs d -> weights_fit bs deg w b -> (full = false -> valid_nC (b_nC (u_B u)) (S deg)) ->
  uH u xs d full = Some (kmat (u_B u) (ucol bs w b) (uks u full) xs d).
Proof.
  intros Hu Hc Hw Hv. destruct full; unfold uks.
  - rewrite <- full_kmat. eapply uH_full; eassumption.
  - rewrite <- part_kmat. eapply uH_part; try eassumption. apply Hv. reflexivity.
Qed.

Lemma mk_nC be bs N nC deg x0 xf w b u l : mk be bs N nC deg x0 xf w b = Some u -> utfc_nC nC = Some l ->
  b_nC (u_B u) = l.
Proof.
  intros Hu El. apply mk_inv in Hu as (l' & z & x & El' & _ & _ & _ & _ & ->). cbn [u_B]. rewrite ubase_nC. congruence.
Qed.

(** the full statement of C27 for a tangent with a non-zero entry *)
Lemma c27 be bs N nC deg x0 xf w b u l xs dx d full : mk be bs N nC deg x0 xf w b = Some u ->
  utfc_nC nC = Some l -> valid_nC l (S deg) -> can be bs d -> can be bs (d + 1) -> weights_fit bs deg w b ->
  length dx = length xs -> (exists t, In t dx /\ t <> 0) ->
  exists M M1 out, uH u xs d full = Some M /\ uH u xs (d + 1) full = Some M1 /\
    utfc_jvp ROps RFun jvp u xs dx d full = Some (M, out) /\ shaped out (length xs) (mc M) /\
    (forall j k, ment out j k = match nth_error dx j, ment M1 j k with Some t, Some v => Some (v * t) | _, _ => None end) /\
    (smooth_basis bs -> forall j k, (j < length xs)%nat -> (k < mc M)%nat ->
       exists (y : R -> R) v, ment out j k = Some v /\ is_derive y 0 v /\
         forall t, exists Mt, uH u (moved xs dx t) d full = Some Mt /\ ment Mt j k = Some (y t)).
Proof.
  intros Hu El Hv Hc Hc1 Hw Hl Hn.
  assert (HK : forall xs d, can be bs d -> uH u xs d full = Some (kmat (u_B u) (ucol bs w b) (uks u full) xs d)).
  { intros xs' d' Hc'. eapply uH_k; try eassumption. intros _. rewrite (mk_nC _ _ _ _ _ _ _ _ _ _ _ Hu El). exact Hv. }
  exists (kmat (u_B u) (ucol bs w b) (uks u full) xs d), (kmat (u_B u) (ucol bs w b) (uks u full) xs (d + 1)).
  destruct (c27_shape u xs dx d full _ _ Hl Hn (HK xs d Hc) (HK xs (d + 1)%nat Hc1) (kmat_shaped _ _ _ _ _))
    as (out & Eo & Hs & He).
  exists out. split; [apply HK, Hc|]. split; [apply HK, Hc1|]. split; [exact Eo|]. split; [exact Hs|]. split; [exact He|].
  intros Hsm j i Hj' Hi. cbn [mc kmat] in Hi.
  destruct (nth_error xs j) as [x|] eqn:Ex; [|apply nth_error_None in Ex; lia].
  destruct (nth_error dx j) as [t0|] eqn:Et; [|apply nth_error_None in Et; lia].
  destruct (nth_error (uks u full) i) as [k|] eqn:Ek; [|apply nth_error_None in Ek; lia].
  set (B := u_B u) in *. set (G := ucol bs w b) in *.
  exists (fun t => G k d ((x + t * t0 - b_x0 B) * b_c B + b_z0 B) * b_c B ^ d).
  exists (G k (d + 1)%nat ((x - b_x0 B) * b_c B + b_z0 B) * b_c B ^ (d + 1) * t0).
  split; [|split].
  - rewrite He, kmat_ent, Et, Ex, Ek. reflexivity.
  - pose proof (gder_ok bs w b Hsm k d ((x + 0 * t0 - b_x0 B) * b_c B + b_z0 B)) as HG. fold G in HG.
    apply (is_derive_ext (fun t => b_c B ^ d * G k d ((x + t * t0 - b_x0 B) * b_c B + b_z0 B)));
      [intros t; apply Rmult_comm|].
    evar_last.
    + apply is_derive_scal.
      apply (is_derive_comp (G k d) (fun t => (x + t * t0 - b_x0 B) * b_c B + b_z0 B)); [exact HG|].
      auto_derive; [trivial|reflexivity].
    + cbn. unfold scal; cbn; unfold mult; cbn.
      replace (x + 0 * t0 - b_x0 B) with (x - b_x0 B) by ring.
      rewrite Nat.add_1_r. cbn [pow]. ring.
  - intros t. exists (kmat B G (uks u full) (moved xs dx t) d). split; [apply HK, Hc|].
    rewrite kmat_ent, Ek.
    assert (Em : nth_error (moved xs dx t) j = Some (x + t * t0)).
    { unfold moved. rewrite nth_error_map.
      assert (Ec : nth_error (combine xs dx) j = Some (x, t0)).
      { clear - Ex Et. revert dx j Et Ex. induction xs as [|r0 rs IH]; intros [|q dx] [|j] Et Er; cbn in *; try discriminate.
        - congruence.
        - apply IH; assumption. }
      rewrite Ec. reflexivity. }
    rewrite Em. reflexivity.
Qed.

Lemma c27_zero u xs dx d full : (forall t, In t dx -> t = 0) -> utfc_jvp ROps RFun jvp u xs dx d full = None.
Proof.
  intros H. unfold utfc_jvp. destruct (existsb (nonzero ROps RFun) dx) eqn:E; [|reflexivity].
  apply existsb_exists in E as (t & Ht & Hn). apply nonzero_R in Hn. exfalso. apply Hn, H, Ht.
Qed.

(** ** vmap *)
Lemma c59 be bs N nC deg x0 xf w b u l xs d full : mk be bs N nC deg x0 xf w b = Some u ->
  utfc_nC nC = Some l -> valid_nC l (S deg) -> can be bs d -> weights_fit bs deg w b ->
  exists rows, vmap_H ROps RFun jvp u xs d full = Some rows /\ length rows = length xs /\
  forall j x, nth_error xs j = Some x -> exists r M, nth_error rows j = Some r /\
    uH u [x] d full = Some M /\ md M = [r] /\
    (be = Cpp -> utfc_abstract u [] full = Some [length r]).
Proof.
  intros Hu El Hv Hc Hw.
  assert (HK : forall xs d, can be bs d -> uH u xs d full = Some (kmat (u_B u) (ucol bs w b) (uks u full) xs d)).
  { intros xs' d' Hc'. eapply uH_k; try eassumption. intros _. rewrite (mk_nC _ _ _ _ _ _ _ _ _ _ _ Hu El). exact Hv. }
  unfold vmap_H. rewrite HK by exact Hc. cbn [bind md kmat]. eexists; split; [reflexivity|].
  split; [apply map_length|]. intros j x Hj'. eexists; eexists.
  split; [rewrite nth_error_map, Hj'; reflexivity|]. split; [apply HK, Hc|]. split; [reflexivity|].
  intros ->. pose proof (mk_inv _ _ _ _ _ _ _ _ _ _ Hu) as (l' & z & xx & El' & _ & _ & _ & _ & Eu).
  rewrite Eu. unfold utfc_abstract. cbn [u_be u_B]. do 2 f_equal. rewrite map_length. unfold uks. cbn [u_B].
  rewrite ubase_m, ubase_nC. destruct full; [symmetry; apply seq_length|].
  assert (l' = l) by congruence. subst l'. symmetry. apply keptc_length, Hv.
Qed.

(** ** named methods *)
Lemma c60 be bs N nC deg x0 xf w b u l xs m full : mk be bs N nC deg x0 xf w b = Some u ->
  utfc_nC nC = Some l -> valid_nC l (S deg) -> (forall d, (d <= 8)%nat -> can be bs d) -> weights_fit bs deg w b ->
  smooth_basis bs ->
  exists M, utfc_call ROps RFun jvp u m xs full = Some M /\
    (exists c, shaped M (length xs) c) /\
    forall j x k, nth_error xs j = Some x -> (k < mc M)%nat ->
      exists (y : R -> R) v, ment M j k = Some v /\
        (forall t, exists M0, utfc_call ROps RFun jvp u mH [t] full = Some M0 /\ ment M0 0 k = Some (y t)) /\
        is_derive_n y (match m with mH => 0 | mdH => 1 | md2H => 2 | md4H => 4 | md8H => 8 end) x v.
Proof.
  intros Hu El Hv Hc Hw Hsm. unfold utfc_call.
  assert (HK : forall xs d, (d <= 8)%nat -> uH u xs d full = Some (kmat (u_B u) (ucol bs w b) (uks u full) xs d)).
  { intros xs' d' Hc'. eapply uH_k; try eassumption; [apply Hc, Hc'|]. intros _. rewrite (mk_nC _ _ _ _ _ _ _ _ _ _ _ Hu El). exact Hv. }
  assert (Hm : (umeth_order m <= 8)%nat) by (destruct m; cbn; lia).
  exists (kmat (u_B u) (ucol bs w b) (uks u full) xs (umeth_order m)).
  split; [apply HK, Hm|]. split; [eexists; apply kmat_shaped|].
  intros j x i Hx Hi. cbn [mc kmat] in Hi.
  destruct (nth_error (uks u full) i) as [k|] eqn:Ek; [|apply nth_error_None in Ek; lia].
  set (B := u_B u) in *. set (G := ucol bs w b) in *.
  exists (fun t => G k 0%nat ((t - b_x0 B) * b_c B + b_z0 B)). eexists. split; [|split].
  - rewrite kmat_ent, Hx, Ek. reflexivity.
  - intros t. exists (kmat B G (uks u full) [t] 0). split; [apply HK; cbn; lia|].
    rewrite kmat_ent, Ek. cbn [nth_error pow]. rewrite Rmult_1_r. reflexivity.
  - pose proof (affine_chain (G k)) as Ha.
    replace (match m with mH => 0 | mdH => 1 | md2H => 2 | md4H => 4 | md8H => 8 end)%nat with (umeth_order m) by (destruct m; reflexivity).
    apply Ha. intros d z. apply (gder_ok bs w b Hsm).
Qed.

(** ** C29 *)
Lemma hcat2_ok (M N : mat R) r c1 c2 : shaped M r c1 -> shaped N r c2 ->
  exists K, hcat2 M N = Some K /\ shaped K r (c1 + c2) /\ mc K = (mc M + mc N)%nat /\
  forall j k, ment K j k = if (k <? mc M)%nat then ment M j k else ment N j (k - mc M).
Proof.
  intros (Hr & Hc & Hl & Hrow) (Hr' & Hc' & Hl' & Hrow'). unfold hcat2. rewrite Hr, Hr', Nat.eqb_refl.
  eexists; split; [reflexivity|]. split; [|split].
  - repeat split; cbn [mr mc md]; [lia| |].
    + rewrite map_length, combine_length. lia.
    + intros row Hin. apply in_map_iff in Hin as ([p q] & <- & Hin). cbn [fst snd]. rewrite app_length.
      rewrite (Hrow p) by (eapply in_combine_l, Hin). rewrite (Hrow' q) by (eapply in_combine_r, Hin). reflexivity.
  - reflexivity.
  - intros j k. unfold ment. cbn [md]. rewrite nth_error_map. rewrite Hc.
    assert (Hcomb : nth_error (combine (md M) (md N)) j =
       match nth_error (md M) j, nth_error (md N) j with Some p, Some q => Some (p, q) | _, _ => None end).
    { clear. generalize (md N) as l2. revert j. induction (md M) as [|p l IH]; intros [|j] [|q l2]; cbn; try reflexivity.
      - destruct (nth_error l j); reflexivity.
      - apply IH. }
    rewrite Hcomb.
    destruct (nth_error (md M) j) as [p|] eqn:Ep.
    + destruct (nth_error (md N) j) as [q|] eqn:Eq.
      * cbn [option_map fst snd]. assert (Hp : length p = c1) by (apply Hrow; eapply nth_error_In, Ep).
        destruct (Nat.ltb_spec k c1).
        -- apply nth_error_app1. lia.
        -- rewrite nth_error_app2 by lia. rewrite Hp. reflexivity.
      * apply nth_error_None in Eq. assert (j < length (md M))%nat by (apply nth_error_Some; congruence). lia.
    + assert (nth_error (md N) j = None) as ->. { apply nth_error_None. apply nth_error_None in Ep. lia. }
      cbn [option_map]. destruct (k <? c1)%nat; reflexivity.
Qed.

Definition zero_cols (r : nat) : mat R := Mat r 0 (repeat [] r).

Lemma hstack_ok (l : list (mat R)) r : l <> [] -> List.Forall (fun M => shaped M r (mc M)) l ->
  exists K, hstack l = Some K /\ shaped K r (list_sum (map mc l)) /\ columns_concat l K.
Proof.
  induction l as [|M l IH]; intros Hne Hall; [congruence|]. inversion Hall as [|? ? HM Hl]; subst.
  destruct l as [|N l].
  - exists M. split; [reflexivity|]. split; [cbn; rewrite Nat.add_0_r; exact HM|].
    cbn [columns_concat]. exists (zero_cols r). split; [split; [reflexivity|]|split].
    + intros j k. unfold ment, zero_cols. cbn [md]. destruct (nth_error (repeat [] r) j) as [q|] eqn:E; [|reflexivity].
      apply nth_error_In, repeat_spec in E. subst q. destruct k; reflexivity.
    + cbn. lia.
    + intros j k. destruct (Nat.ltb_spec k (mc M)); [reflexivity|].
      unfold ment, zero_cols. cbn [md].
      assert (Hz : match nth_error (repeat (@nil R) r) j with Some q => nth_error q (k - mc M) | None => None end = None).
      { destruct (nth_error (repeat [] r) j) as [q|] eqn:E; [|reflexivity].
        apply nth_error_In, repeat_spec in E. subst q. destruct (k - mc M)%nat; reflexivity. }
      rewrite Hz. destruct (nth_error (md M) j) as [q|] eqn:E; [|reflexivity].
      apply nth_error_None. destruct HM as (_ & _ & _ & Hrow). rewrite (Hrow q); [lia|]. eapply nth_error_In, E.
  - destruct (IH ltac:(discriminate) Hl) as (K & EK & HK & HC).
    destruct (hcat2_ok M K r _ _ HM HK) as (K2 & E2 & H2 & Hc2 & He2).
    exists K2. change (hstack (M :: N :: l)) with (N0 <- hstack (N :: l) ;; hcat2 M N0). rewrite EK; cbn [bind].
    split; [exact E2|]. split; [exact H2|]. cbn [columns_concat]. exists K. split; [exact HC|]. split; assumption.
Qed.

Lemma c29_reject l : (exists k k' : utfc, In k l /\ In k' l /\ u_N k <> u_N k') -> hybrid_init (T:=R) l = None.
Proof.
  intros (k & k' & Hk & Hk' & Hn). destruct l as [|k0 l]; [destruct Hk|]. cbn [hybrid_init].
  destruct (forallb _ _) eqn:E; [|reflexivity]. rewrite forallb_forall in E.
  exfalso. apply Hn. rewrite (proj1 (Nat.eqb_eq _ _) (E k Hk)), (proj1 (Nat.eqb_eq _ _) (E k' Hk')). reflexivity.
Qed.
Lemma c29_accept l : (forall k k' : utfc, In k l -> In k' l -> u_N k = u_N k') -> hybrid_init (T:=R) l = Some l.
Proof.
  intros H. destruct l as [|k0 l]; [reflexivity|]. cbn [hybrid_init].
  assert (E : forallb (fun k => (u_N k =? u_N k0)%nat) (k0 :: l) = true).
  { apply forallb_forall. intros k Hk. apply Nat.eqb_eq, H; [exact Hk|left; reflexivity]. }
  rewrite E. reflexivity.
Qed.

Lemma member_H u xs d full : member u d -> exists M, uH u xs d full = Some M /\ shaped M (length xs) (mc M).
Proof.
  intros (be & bs & N & nC & l & deg & x0 & xf & w & b & Hu & El & Hv & Hc & Hw).
  eexists; split.
  - eapply uH_k; try eassumption. intros _. rewrite (mk_nC _ _ _ _ _ _ _ _ _ _ _ Hu El). exact Hv.
  - apply kmat_shaped.
Qed.


Lemma c29 h m xs full : h <> [] -> (forall u, In u h -> member u (mord m)) ->
  exists Ms K, length Ms = length h /\
    (forall i u, nth_error h i = Some u -> exists M, nth_error Ms i = Some M /\ uH u xs (mord m) full = Some M) /\
    hybrid_call ROps RFun jvp h m xs full = Some K /\
    columns_concat Ms K /\ shaped K (length xs) (list_sum (map mc Ms)).
Proof.
  intros Hne Hall. unfold hybrid_call. change (hmeth_order m) with (mord m).
  assert (HM : exists Ms, mapM (fun k => uH k xs (mord m) full) h = Some Ms /\
     List.Forall (fun M => shaped M (length xs) (mc M)) Ms /\ length Ms = length h /\
     (forall i u, nth_error h i = Some u -> exists M, nth_error Ms i = Some M /\ uH u xs (mord m) full = Some M)).
  { clear Hne. induction h as [|u h IH].
    - exists []. repeat split; [constructor|]. intros [|i] u H; discriminate.
    - destruct IH as (Ms & E & HF & Hl & Hn); [intros; apply Hall; right; assumption|].
      destruct (member_H u xs (mord m) full (Hall u ltac:(left; reflexivity))) as (M & EM & HsM).
      exists (M :: Ms). cbn [mapM]. rewrite EM; cbn [bind]. rewrite E; cbn [bind]. split; [reflexivity|].
      split; [constructor; assumption|]. split; [cbn; lia|].
      intros [|i] u' Hu'; cbn in *.
      + injection Hu' as <-. exists M. split; [reflexivity|exact EM].
      + apply Hn, Hu'. }
  destruct HM as (Ms & E & HF & Hl & Hn). rewrite E; cbn [bind].
  destruct (hstack_ok Ms (length xs)) as (K & EK & HK & HC); [|exact HF|].
  { intros ->. destruct h; [congruence|discriminate]. }
  exists Ms, K. repeat split; try assumption; apply HK.
Qed.
End Mats.

(** ** C18 *)
Lemma linspace_R a b n : (1 <= n)%nat ->
  linspace ROps a b (S n) = map (fun k => a + INR k * ((b - a) / INR n)) (seq 0 (S n)).
Proof. intros Hn. destruct n; [lia|reflexivity]. Qed.

Lemma cos_pts n k : (1 <= n)%nat -> cos (PI * (INR n - INR k) / INR n) = - cos (PI * INR k / INR n).
Proof.
  intros Hn. assert (INR n <> 0) by (apply not_0_INR; lia).
  replace (PI * (INR n - INR k) / INR n) with (- (PI * INR k / INR n) + PI) by (field; assumption).
  rewrite neg_cos, cos_neg. reflexivity.
Qed.

Lemma c18_points be bs N nC deg x0 xf w b u : (2 <= N)%nat -> x0 <> xf -> mk be bs N nC deg x0 xf w b = Some u ->
  u_x u = map (point_rule bs x0 xf (N - 1)) (seq 0 N).
Proof.
  intros HN Hx Hu. apply mk_inv in Hu as (l & z & x & _ & _ & _ & Ho & Ep & ->). cbn [u_x].
  destruct N as [|[|n]]; [lia|lia|]. replace (S (S n) - 1)%nat with (S n) by lia.
  assert (Hn0 : INR (S n) <> 0) by (apply not_0_INR; lia). assert (xf - x0 <> 0) by lra.
  unfold utfc_points in Ep.
  destruct bs as [[]|f]; cbn [offered] in Ho; try (exfalso; intuition discriminate); cbn [bind uz0 uzf] in Ep;
    apply some_inj in Ep; pose proof (f_equal snd Ep) as Ex; cbn [snd] in Ex; subst x;
    rewrite linspace_R by lia; rewrite !map_map; apply map_ext_in; intros k _; cbn [point_rule].
  - unfold cgl. cbn [ROps o0 oadd osub omul odiv onat RFun fcos fpi ubase fam_init basis_init b_c b_x0 oopp o1].
    replace (0 * x0 + INR k * ((INR (S n) - 0 * x0) / INR (S n))) with (INR k) by (field; assumption).
    rewrite cos_pts by lia. field; repeat split; lra.
  - unfold cgl. cbn [ROps o0 oadd osub omul odiv onat RFun fcos fpi ubase fam_init basis_init b_c b_x0 oopp o1].
    replace (0 * x0 + INR k * ((INR (S n) - 0 * x0) / INR (S n))) with (INR k) by (field; assumption).
    rewrite cos_pts by lia. field; repeat split; lra.
  - unfold equispaced. cbn [ROps o0 oadd osub omul odiv onat RFun fcos fpi ubase fam_init basis_init b_c b_x0 oopp o1].
    pose proof PI_RGT_0. field; repeat split; lra.
  - unfold equispaced. cbn [ROps o0 oadd osub omul odiv onat RFun fcos fpi ubase elm_init basis_init b_c b_x0 oopp o1].
    field; repeat split; lra.
Qed.

Lemma rule_first bs x0 xf n : (1 <= n)%nat -> point_rule bs x0 xf n 0 = x0.
Proof.
  intros Hn. assert (INR n <> 0) by (apply not_0_INR; lia).
  assert (cgl x0 xf n 0 = x0). { unfold cgl. cbn [INR]. replace (PI * 0 / INR n) with 0 by (field; assumption). rewrite cos_0. field. }
  assert (equispaced x0 xf n 0 = x0). { unfold equispaced. cbn [INR]. field. assumption. }
  destruct bs as [[]|]; assumption.
Qed.
Lemma rule_last bs x0 xf n : (1 <= n)%nat -> point_rule bs x0 xf n n = xf.
Proof.
  intros Hn. assert (INR n <> 0) by (apply not_0_INR; lia).
  assert (cgl x0 xf n n = xf). { unfold cgl. replace (PI * INR n / INR n) with PI by (field; assumption). rewrite cos_PI. field. }
  assert (equispaced x0 xf n n = xf). { unfold equispaced. field. assumption. }
  destruct bs as [[]|]; assumption.
Qed.
Lemma rule_incr bs x0 xf n i j : x0 < xf -> (i < j)%nat -> (j <= n)%nat ->
  point_rule bs x0 xf n i < point_rule bs x0 xf n j.
Proof.
  intros Hx Hij Hj. assert (Hn : 0 < INR n) by (apply lt_0_INR; lia).
  assert (Hi0 : 0 <= INR i) by apply pos_INR.
  assert (Hij' : INR i < INR j) by (apply lt_INR, Hij).
  assert (Hjn : INR j <= INR n) by (apply le_INR, Hj).
  pose proof PI_RGT_0 as HPI.
  assert (H1 : cgl x0 xf n i < cgl x0 xf n j).
  { unfold cgl.
    assert (cos (PI * INR j / INR n) < cos (PI * INR i / INR n)).
    { apply cos_decreasing_1.
      - apply Rmult_le_pos; [apply Rmult_le_pos; lra|]. left; apply Rinv_0_lt_compat, Hn.
      - apply (Rmult_le_reg_r (INR n)); [exact Hn|]. unfold Rdiv. rewrite Rmult_assoc, Rinv_l, Rmult_1_r by lra. nra.
      - apply Rmult_le_pos; [apply Rmult_le_pos; lra|]. left; apply Rinv_0_lt_compat, Hn.
      - apply (Rmult_le_reg_r (INR n)); [exact Hn|]. unfold Rdiv. rewrite Rmult_assoc, Rinv_l, Rmult_1_r by lra. nra.
      - unfold Rdiv. apply Rmult_lt_compat_r; [apply Rinv_0_lt_compat, Hn|]. nra. }
    nra. }
  assert (H2 : equispaced x0 xf n i < equispaced x0 xf n j).
  { unfold equispaced. assert (INR i / INR n < INR j / INR n).
    { unfold Rdiv. apply Rmult_lt_compat_r; [apply Rinv_0_lt_compat, Hn|exact Hij']. }
    nra. }
  destruct bs as [[]|]; assumption.
Qed.

Lemma c18 be bs N nC deg x0 xf w b u : (2 <= N)%nat -> x0 < xf -> mk be bs N nC deg x0 xf w b = Some u ->
  length (u_x u) = N /\ nth_error (u_x u) 0 = Some x0 /\ nth_error (u_x u) (N - 1) = Some xf /\
  (forall i j xi xj, (i < j)%nat -> nth_error (u_x u) i = Some xi -> nth_error (u_x u) j = Some xj -> xi < xj) /\
  (forall x, In x (u_x u) -> x0 <= x <= xf) /\
  (forall k, (k < N)%nat -> nth_error (u_x u) k = Some (point_rule bs x0 xf (N - 1) k)).
Proof.
  intros HN Hx Hu. assert (Hne : x0 <> xf) by lra. rewrite (c18_points _ _ _ _ _ _ _ _ _ _ HN Hne Hu). clear Hu Hne.
  assert (Hnth : forall k, (k < N)%nat -> nth_error (map (point_rule bs x0 xf (N - 1)) (seq 0 N)) k = Some (point_rule bs x0 xf (N - 1) k)).
  { intros k Hk. rewrite nth_error_map_seq. destruct (Nat.ltb_spec k N); [reflexivity|lia]. }
  split; [rewrite map_length; apply seq_length|].
  split; [rewrite Hnth by lia; rewrite rule_first by lia; reflexivity|].
  split; [rewrite Hnth by lia; rewrite rule_last by lia; reflexivity|].
  split; [|split; [|exact Hnth]].
  - intros i j xi xj Hij Hi Hj. rewrite nth_error_map_seq in Hi, Hj.
    destruct (Nat.ltb_spec i N); [|discriminate]. destruct (Nat.ltb_spec j N); [|discriminate].
    injection Hi as <-. injection Hj as <-. apply rule_incr; [exact Hx|exact Hij|lia].
  - intros x Hin. apply in_map_iff in Hin as (k & <- & Hk). apply in_seq in Hk.
    pose proof (rule_first bs x0 xf (N - 1) ltac:(lia)) as Hf. pose proof (rule_last bs x0 xf (N - 1) ltac:(lia)) as Hl.
    split.
    + destruct k as [|k]; [lra|]. pose proof (rule_incr bs x0 xf (N - 1) 0 (S k) Hx ltac:(lia) ltac:(lia)). lra.
    + destruct (Nat.eq_dec k (N - 1)) as [->|Hk']; [lra|]. pose proof (rule_incr bs x0 xf (N - 1) k (N - 1) Hx ltac:(lia) ltac:(lia)). lra.
Qed.

Lemma c14_python bs N nC deg x0 xf w b u shape full : mk Py bs N nC deg x0 xf w b = Some u ->
  utfc_abstract u shape full = None.
Proof. intros Hu. apply mk_inv in Hu as (l & z & x & _ & _ & _ & _ & _ & ->). reflexivity. Qed.

Lemma c26_doc jvp be bs N nC deg x0 xf w b removed l :
  jvp_ok jvp -> offered bs -> (2 <= N)%nat -> weights_fit bs deg w b ->
  documented nC removed -> (forall v, nC <> NcNumpy v) ->
  (forall i, removed i <-> In i l) -> valid_nC l (S deg) -> NoDup (match nC with NcInt _ => [] | NcJax v | NcList v | NcNumpy v => v end) ->
  (length l <= deg)%nat ->
  exists u, mk be bs N nC deg x0 xf w b = Some u /\
  forall xs d, can be bs d -> exists M Mc, utfc_H ROps RFun jvp u xs d true = Some M /\ utfc_H ROps RFun jvp u xs d false = Some Mc /\
    columns_removed (S deg) l M Mc /\ mc Mc = (S deg - length l)%nat.
Proof.
  intros Hj Ho HN Hw Hd Hnp Hr Hv Hnd Hl.
  assert (El : exists l', utfc_nC nC = Some l') by (destruct nC; cbn; eauto; exfalso; eapply Hnp; reflexivity).
  destruct El as (l' & El). pose proof (doc_list _ _ _ Hd El) as Hdl.
  assert (Hin : forall i, In i l' <-> In i l) by (intros i; rewrite <- Hdl; apply Hr).
  assert (Hnd' : NoDup l').
  { destruct nC; cbn in El; try discriminate; apply some_inj in El; subst l'; try exact Hnd.
    apply FinFun.Injective_map_NoDup; [intros a b'; lia|apply seq_NoDup]. }
  assert (Hlen : length l' = length l).
  { apply Nat.le_antisymm; apply NoDup_incl_length; try exact Hnd'; try apply Hv; intros i Hi; apply Hin, Hi. }
  destruct (c26_accept jvp Hj be bs N nC deg x0 xf w b l' Ho HN El ltac:(lia)) as (u & Hu & HH).
  { split; [exact Hnd'|]. intros i Hi. apply Hv, Hin, Hi. }
  { exact Hw. }
  exists u. split; [exact Hu|]. intros xs d Hc. destruct (HH xs d Hc) as (M & Mc & E & Ec & Hrem & Hmc).
  exists M, Mc. split; [exact E|]. split; [exact Ec|]. split; [apply (removed_ext _ l'); assumption|]. lia.
Qed.

(** ** an out-of-range or repeated entry of [nC] makes the C++ call write outside its output *)
Lemma for_some_inv {S} (Q : nat -> S -> Prop) body lo hi (s s' : S) : (lo <= hi)%nat -> Q lo s ->
  (forall k s1 s2, (lo <= k < hi)%nat -> Q k s1 -> body k s1 = Some s2 -> Q (Datatypes.S k) s2) ->
  for_ lo hi body s = Some s' -> Q hi s'.
Proof.
  unfold for_. intros Hle. remember (hi - lo)%nat as n eqn:En. revert lo s Hle En.
  induction n as [|n IH]; intros lo s Hle En H0 Hs; cbn [iter_].
  - intros E; injection E as <-. replace hi with lo by lia. exact H0.
  - destruct (body lo s) as [s1|] eqn:Eb; cbn [bind]; [|discriminate]. intros E.
    apply (IH (Datatypes.S lo) s1); try lia.
    + apply (Hs lo s s1); [lia|exact H0|exact Eb].
    + intros k a b Hk. apply Hs. lia.
    + exact E.
Qed.
Lemma bwr_some {T} (F : buf T) i v F' : bwr F i v = Some F' -> blen F' = blen F /\ (i < blen F)%nat.
Proof.
  unfold bwr. destruct (Nat.ltb_spec i (blen F)); [|discriminate]. intros E; injection E as <-. split; [reflexivity|assumption].
Qed.

Lemma emit_overflow nC m n mOut s dark (F : buf R) : (1 <= n)%nat -> blen F = (mOut * n)%nat ->
  (mOut < length (keptc nC m))%nat -> cpp_emit ROps nC m n mOut s false dark F = None.
Proof.
  intros Hn Hl Hk. unfold cpp_emit.
  match goal with |- context [for_ 0 m ?b ?st] => destruct (for_ 0 m b st) as [[i F']|] eqn:E; [|reflexivity] end.
  exfalso.
  apply (for_some_inv (fun j (st : nat * buf R) => fst st = length (keptc nC j) /\ blen (snd st) = (mOut * n)%nat /\
      (fst st <= mOut)%nat)) in E.
  - destruct E as (Hi & _ & Hi'). cbn [fst] in *. lia.
  - lia.
  - repeat split; [exact Hl|cbn; lia].
  - clear i F' E; intros j [i G] [i' G'] Hj (Hi & HG & Hi') Hs. cbn [fst snd] in *. rewrite keptc_S.
    destruct (in_nC nC j).
    + injection Hs as <- <-. rewrite app_nil_r. repeat split; assumption.
    + match type of Hs with (F <- ?f ;; _) = _ => destruct f as [G2|] eqn:E2; cbn [bind] in Hs; [|discriminate] end.
      apply (for_some_inv (fun k (G : buf R) => blen G = (mOut * n)%nat /\ (k = n -> (i < mOut)%nat))) in E2.
      * injection Hs as <- <-. destruct E2 as [E2 E3]. specialize (E3 eq_refl).
        rewrite app_length. cbn [length]. repeat split; [lia|exact E2|lia].
      * lia.
      * split; [exact HG|lia].
      * intros k G3 G4 Hk3 [HG3 _] Hb. destruct (brd dark (m * k + j)) as [v|]; cbn [bind] in Hb; [|discriminate].
        apply bwr_some in Hb as [Hb1 Hb2]. split; [congruence|]. intros Hkn. subst n. rewrite HG3 in Hb2. nia.
Qed.

Lemma cpp_H_overflow hint (B : basis (T:=R)) xs d : xs <> [] ->
  (b_m B - length (b_nC B) < length (keptc (b_nC B) (b_m B)))%nat ->
  cpp_H_mat_with hint B xs d false = None.
Proof.
  intros Hx Hk. unfold cpp_H_mat_with, cpp_H_with. cbn [negb andb].
  destruct (_ <? _)%nat; [reflexivity|].
  destruct (cpp_map_points _ _ _ _); cbn [bind]; [|reflexivity].
  destruct (hint _ _ _ _); cbn [bind]; [|reflexivity].
  rewrite emit_overflow; [reflexivity| |reflexivity|exact Hk].
  destruct xs; [congruence|cbn; lia].
Qed.

Lemma c26_range jvp deg : (1 <= deg)%nat -> exists u,
  mk Cpp (UB CP) 2 (NcList [Z.of_nat deg + 1]%Z) deg 0 1 [] [] = Some u /\
  forall xs d, xs <> [] -> utfc_H ROps RFun jvp u xs d false = None.
Proof.
  intros Hd.
  destruct (mk_some Cpp (UB CP) 2 (NcList [Z.of_nat deg + 1]%Z) [Z.of_nat deg + 1]%Z deg 0 1 [] [] eq_refl Hd
    ltac:(intros i [<-|[]]; lia) ltac:(left; reflexivity) ltac:(lia)) as (u & Hu).
  exists u. split; [exact Hu|]. intros xs d Hx.
  pose proof (mk_inv _ _ _ _ _ _ _ _ _ _ Hu) as (l' & z & x & El' & _ & _ & _ & _ & ->).
  cbn [utfc_nC] in El'. apply some_inj in El'. subst l'.
  unfold utfc_H. cbn [u_be u_basis u_B ubase]. rewrite cpp_H_mat_eq. apply cpp_H_overflow; [exact Hx|].
  rewrite fam_init_m, fam_init_nC. cbn [length].
  assert (E : keptc [Z.of_nat deg + 1]%Z (S deg) = seq 0 (S deg)).
  { unfold keptc. rewrite <- (keptc_nil (S deg)) at 2. unfold keptc. apply filter_ext_in. intros k Hk. apply in_seq in Hk.
    f_equal. unfold in_nC. cbn [existsb]. destruct (Z.eqb_spec (Z.of_nat k) (Z.of_nat deg + 1)); [lia|reflexivity]. }
  rewrite E, seq_length. lia.
Qed.
