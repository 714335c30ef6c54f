From Coq Require Import List Arith Bool Lia.
From Verif Require Import Base ModelDict SpecDict ProofDict ProofDict2.
Import ListNotations.

Section D.
Context {T K : Type} (keq : K -> K -> bool) (Hk : keq_ok keq).
Notation arr := (@arr T). Notation val := (@val T). Notation heap := (@heap T).
Notation tdict := (@tdict T K). Notation items := (list (K * val)).
Notation od_get := (od_get keq). Notation od_set := (od_set keq).

(** ** TFCDictRobust *)
Lemma r_refresh_total (h : heap) (d : items) : exists s, r_refresh h d = Some (TD d (map fst d) s).
Proof.
  unfold r_refresh, r_getSlices. destruct (forallb is_jax (map snd d)) eqn:E; [|cbn; eauto].
  assert (exists lens, mapM (fun v => a <- ld h v ;; Some (length (a_data (flatten a)))) (map snd d) = Some lens) as [lens ->].
  { revert E. generalize (map snd d). clear. induction l as [|v l IH]; intros E; [cbn; eauto|].
    cbn in E. destruct v; try discriminate. destruct (IH E) as [lens El]. cbn [mapM ld bind].
    rewrite El. cbn. eauto. }
  cbn. eauto.
Qed.

(** pieces given the shapes of the entries *)
Definition shaped (c : list (K * arr)) (ds : list (list T)) : list arr :=
  map (fun p => Arr_ (a_shape (snd (fst p))) (snd p)) (combine c ds).
Lemma shaped_self (c : list (K * arr)) : shaped c (map (fun p => a_data (snd p)) c) = map snd c.
Proof.
  unfold shaped. induction c as [|[k [s l]] c IH]; cbn; [reflexivity|]. f_equal. exact IH.
Qed.
Lemma shaped_length (c : list (K * arr)) (ds : list (list T)) : length ds = length c -> length (shaped c ds) = length c.
Proof. intros H. unfold shaped. rewrite map_length, combine_length. lia. Qed.
Lemma shaped_data (c : list (K * arr)) (ds : list (list T)) : length ds = length c -> map a_data (shaped c ds) = ds.
Proof.
  unfold shaped. revert ds. induction c as [|p c IH]; intros [|l ds]; cbn; intros H; try discriminate; [reflexivity|].
  f_equal. apply IH. lia.
Qed.
Lemma shaped_spec (c : list (K * arr)) : forall ds,
  map (@length T) ds = map (fun p => length (a_data (snd p))) c -> Forall (fun p => wf (snd p)) c ->
  Forall wf (shaped c ds) /\ Forall2 (fun p b => a_shape b = a_shape (snd p)) c (shaped c ds).
Proof.
  unfold shaped. induction c as [|p c IH]; intros [|l ds] E W; cbn in *; try discriminate; [split; constructor|].
  injection E as E1 E2. inversion W as [|? ? W1 W2]; subst. destruct (IH ds E2 W2) as [H1 H2].
  split; constructor; auto. unfold wf in *. cbn [a_data a_shape fst snd]. congruence.
Qed.

Lemma r_picks (h : heap) (d : tdict) c ds :
  NoDup (map fst (td_items d)) -> contents h d = Some c -> Forall (fun p => wf (snd p)) c ->
  map (@length T) ds = map (fun p => length (a_data (snd p))) c ->
  mapM (r_pick keq h d (concat ds)) (combine (map fst c) (slices_from 0 (map (@length T) ds))) = Some (shaped c ds).
Proof.
  intros Hn Hc W E. apply mapM_Forall2.
  pose proof (pick_slices0 ds) as Ep.
  assert (Hg : forall k a, In (k, a) c -> exists v, od_get (td_items d) k = Some v /\ ld h v = Some a).
  { intros k a. apply (contents_get _ Hk); assumption. }
  clear Hc Hn. revert Ep. generalize (concat ds) as L. generalize 0 as st.
  revert ds E Hg. induction W as [|[k a] c Wa W IH]; intros [|l ds] E Hg st L Ep; cbn in *; try discriminate; [constructor|].
  injection E as E1 E2. injection Ep as Ep0 Ep1 Ep2. constructor.
  - unfold r_pick. cbn [fst snd]. destruct (Hg k a (or_introl eq_refl)) as (v & -> & Lv). cbn [bind]. rewrite Lv. cbn [bind].
    unfold reshape, pick. cbn [flat a_data]. rewrite Ep1. red in Wa. cbn in Wa. rewrite E1, Wa, Nat.eqb_refl. reflexivity.
  - apply IH; auto.
Qed.

Lemma r_toArray_ok (h : heap) (d : tdict) c : contents h d = Some c -> c <> [] -> r_toArray h d = Some (flat (packed c)).
Proof.
  intros Hc Hn. unfold r_toArray. destruct (contents_ld _ _ _ Hc) as [E1 _]. rewrite E1. cbn [bind].
  rewrite hstack_1d.
  - rewrite !map_map. reflexivity.
  - destruct c; [contradiction|discriminate].
  - apply Forall_forall. intros x Hx. apply in_map_iff in Hx. destruct Hx as (y & <- & _). reflexivity.
Qed.

Lemma r_toDict_pieces np (h : heap) (d : tdict) c a ds :
  fresh r_refresh h d -> forallb is_jax (map snd (td_items d)) = true -> contents h d = Some c ->
  Forall (fun p => wf (snd p)) c ->
  a_data a = concat ds -> map (@length T) ds = map (fun p => length (a_data (snd p))) c ->
  exists h' d', r_toDict keq np h d a = (h', Some d') /\ fresh r_refresh h' d' /\
    contents h' d' = Some (combine (map fst c) (shaped c ds)) /\
    (forall v b, ld h v = Some b -> ld h' v = Some b).
Proof.
  intros Hfr Hj Hc W Ha Hl. destruct (fresh_robust _ _ _ Hfr Hc Hj) as (K1 & K2 & K3).
  pose proof (fresh_keys _ _ _ Hfr) as Hn.
  unfold r_toDict. cbn [flatten flat a_data]. rewrite Ha, K1, K2, K3, <- Hl, (r_picks _ _ _ _ Hn Hc W Hl).
  destruct (alloc np h (shaped c ds)) as [h' vs] eqn:Eal.
  destruct (alloc_ld _ _ _ _ _ Eal) as [El Elen].
  assert (Eds : length ds = length c).
  { rewrite <- (map_length (@length T) ds), Hl, map_length. reflexivity. }
  rewrite shaped_length in Elen by assumption.
  assert (Elen2 : length (map fst c) = length vs) by (rewrite map_length; congruence).
  assert (Hnd' : NoDup (map fst (combine (map fst c) vs))).
  { rewrite map_fst_combine by assumption. rewrite <- K2. assumption. }
  assert (Hc' : contents_of h' (combine (map fst c) vs) = Some (combine (map fst c) (shaped c ds))).
  { apply ld_contents; assumption. }
  unfold r_new. rewrite (od_init _ Hk) by assumption.
  destruct (r_refresh_total h' (combine (map fst c) vs)) as [s Hs].
  exists h', (TD (combine (map fst c) vs) (map fst (combine (map fst c) vs)) s).
  rewrite Hs. split; [reflexivity|]. split; [split; assumption|]. split; [exact Hc'|].
  intros v b. exact (alloc_old _ _ _ _ _ v b Eal).
Qed.

Lemma c34_roundtrip np (h : heap) (d : tdict) c a :
  fresh r_refresh h d -> forallb is_jax (map snd (td_items d)) = true -> contents h d = Some c ->
  Forall (fun p => wf (snd p)) c -> a_data a = packed c ->
  exists h' d', r_toDict keq np h d a = (h', Some d') /\ contents h' d' = Some c /\ contents h' d = Some c.
Proof.
  intros Hfr Hj Hc W Ha.
  destruct (r_toDict_pieces np h d c a (map (fun p => a_data (snd p)) c) Hfr Hj Hc W Ha) as (h' & d' & E1 & E2 & E3 & E4).
  { rewrite map_map. reflexivity. }
  exists h', d'. split; [assumption|]. rewrite shaped_self, combine_fst_snd in E3. split; [assumption|].
  eapply contents_mono; eassumption.
Qed.
Lemma c34_unpack_pack np (h : heap) (d : tdict) c a :
  fresh r_refresh h d -> forallb is_jax (map snd (td_items d)) = true -> contents h d = Some c -> c <> [] ->
  Forall (fun p => wf (snd p)) c -> length (a_data a) = length (packed c) ->
  exists h' d' c', r_toDict keq np h d a = (h', Some d') /\ contents h' d' = Some c' /\
    map (fun p => (fst p, a_shape (snd p))) c' = map (fun p => (fst p, a_shape (snd p))) c /\
    r_toArray h' d' = Some (flat (a_data a)).
Proof.
  intros Hfr Hj Hc Hne W Hl. rewrite packed_length in Hl. destruct (split_lens _ _ Hl) as [ds [E Eds]].
  destruct (r_toDict_pieces np h d c a ds Hfr Hj Hc W E Eds) as (h' & d' & E1 & E2 & E3 & E4).
  assert (El : length ds = length c).
  { rewrite <- (map_length (@length T) ds), Eds, map_length. reflexivity. }
  exists h', d', (combine (map fst c) (shaped c ds)). split; [assumption|]. split; [assumption|]. split.
  - clear - El. unfold shaped. revert ds El. induction c as [|p c IH]; intros [|l ds] El; cbn in *; try discriminate; [reflexivity|].
    f_equal. apply IH. lia.
  - rewrite (r_toArray_ok _ _ _ E3).
    + unfold packed. rewrite <- (map_map snd a_data), map_snd_combine by (rewrite map_length, shaped_length by assumption; reflexivity).
      rewrite shaped_data, E by assumption. reflexivity.
    + intros E0. apply (f_equal (@length _)) in E0. rewrite combine_length, map_length, shaped_length, Nat.min_id in E0 by assumption.
      destruct c; [contradiction|discriminate].
Qed.

(** C31 for TFCDictRobust with a packed array. *)
Lemma r_arith_arr_dict f ip (h : heap) (d : tdict) c a ds :
  fresh r_refresh h d -> forallb is_jax (map snd (td_items d)) = true -> contents h d = Some c ->
  Forall (fun p => wf (snd p)) c ->
  a_data a = concat ds -> map (@length T) ds = map (fun p => length (a_data (snd p))) c ->
  r_arith keq f ip h d d (OJax a) =
  aug_dict keq f h (td_items d) (td_keys d) (combine (td_keys d) (map Jax (shaped c ds))).
Proof.
  intros Hfr Hj Hc W Ha Hl. destruct (fresh_robust _ _ _ Hfr Hc Hj) as (K1 & K2 & K3).
  pose proof (fresh_keys _ _ _ Hfr) as Hn.
  assert (Eds : length ds = length c).
  { rewrite <- (map_length (@length T) ds), Hl, map_length. reflexivity. }
  pose proof (r_picks _ _ _ _ Hn Hc W Hl) as Hp. rewrite Hl, <- K2, <- K1, <- K3, <- Ha in Hp.
  assert (El1 : length (td_keys d) = length (td_slices d)).
  { rewrite K1, K2, K3, slices_from_length, !map_length. reflexivity. }
  cbn [r_arith flatten flat a_data].
  rewrite (aug_arr_dict _ Hk f _ (td_items d)
     (fun p => match r_pick keq h d (a_data a) p with Some x => x | None => flat [] end)
     (combine (td_keys d) (map Jax (shaped c ds)))).
  - rewrite map_fst_combine by assumption. reflexivity.
  - rewrite map_fst_combine by assumption. rewrite K1. assumption.
  - intros p Hpp. apply mapM_Forall2 in Hp.
    assert (exists b, In (p, b) (combine (combine (td_keys d) (td_slices d)) (shaped c ds)) /\ r_pick keq h d (a_data a) p = Some b) as (b & Hb & ->).
    { apply (F2_In_l _ _ _ _ Hp Hpp). }
    assert (Hin : In (fst p, Jax b) (combine (td_keys d) (map Jax (shaped c ds)))).
    { clear - Hb. revert Hb. generalize (td_keys d) (td_slices d) (shaped c ds).
      induction l as [|k l IH]; intros [|s l0] [|x l1]; cbn; try tauto.
      intros [[= <- <-]|H]; [left; reflexivity|]. right. eapply IH. eassumption. }
    apply (In_od_get _ Hk); [|exact Hin].
    rewrite map_fst_combine; [rewrite K1; assumption|]. rewrite !map_length, shaped_length by assumption.
    rewrite K1, K2, map_length. reflexivity.
  - intros p tgt' Hpp Ht. apply mapM_Forall2 in Hp. destruct (F2_In_l _ _ _ _ Hp Hpp) as (b & _ & Hb).
    assert (E2 : forall it, od_get it (fst p) = od_get (td_items d) (fst p) ->
      r_pick keq h (TD it [] []) (a_data a) p = r_pick keq h d (a_data a) p).
    { intros it Hit. unfold r_pick. cbn [td_items]. rewrite Hit. reflexivity. }
    destruct ip; rewrite E2 by (assumption || reflexivity); rewrite Hb; reflexivity.
  - reflexivity.
Qed.
Lemma shaped_matches (h : heap) (c : list (K * arr)) : forall ds,
  map (@length T) ds = map (fun p => length (a_data (snd p))) c ->
  matches h c (combine (map fst c) (map Jax (shaped c ds))) (shaped c ds).
Proof.
  unfold shaped, matches. induction c as [|p c IH]; intros [|l ds] E; cbn in *; try discriminate; [constructor|].
  injection E as E1 E2. constructor.
  - eexists. split; [left; reflexivity|]. cbn. auto.
  - eapply F2_impl; [|exact (IH ds E2)]. cbn. intros q b (y & H1 & H2). exists y. split; [right|]; assumption.
Qed.
Lemma c31_robust_array f (h : heap) (d : tdict) c a :
  fresh r_refresh h d -> forallb is_jax (map snd (td_items d)) = true -> contents h d = Some c ->
  Forall (fun p => wf (snd p)) c -> length (a_data a) = length (packed c) ->
  exists d', r_iop keq f h d (OJax a) = (h, d', Done) /\ r_op keq f h d (OJax a) = (h, Some d') /\
  exists c', contents h d' = Some c' /\ map fst c' = map fst c /\
    map (fun p => a_shape (snd p)) c' = map (fun p => a_shape (snd p)) c /\
    Forall (fun p => wf (snd p)) c' /\ packed c' = zip2 f (packed c) (a_data a).
Proof.
  intros Hfr Hj Hc W Hl. destruct (fresh_robust _ _ _ Hfr Hc Hj) as (K1 & K2 & K3).
  pose proof (fresh_keys _ _ _ Hfr) as Hn.
  rewrite packed_length in Hl. destruct (split_lens _ _ Hl) as (ds & Ed & Eds).
  assert (El : length ds = length c).
  { rewrite <- (map_length (@length T) ds), Eds, map_length. reflexivity. }
  destruct (shaped_spec c ds Eds W) as [W2 Es].
  set (o := combine (td_keys d) (map Jax (shaped c ds))).
  assert (Hj2 : forall k l, ~ In (k, Np l) o).
  { intros k l Hi. apply in_combine_r in Hi. apply in_map_iff in Hi. destruct Hi as (x & Hx & _). discriminate. }
  assert (Hm : matches h c o (shaped c ds)).
  { unfold o. rewrite K1, K2. apply shaped_matches. exact Eds. }
  destruct (aug_dict_ok _ Hk f h (td_items d) c o (shaped c ds)) as (h' & it & E & Ek & Ec & _); auto.
  { unfold o. rewrite map_fst_combine; [rewrite K1; assumption|].
    rewrite K1, K2, !map_length, shaped_length by assumption. reflexivity. }
  { apply unshared_jax. exact Hj2. }
  assert (h' = h).
  { pose proof (aug_dict_heap _ Hk f o (map fst (td_items d)) h (td_items d) Hn) as Hh. rewrite E in Hh. apply Hh.
    intros k _ (l & l' & _ & E2). apply (od_get_In _ Hk) in E2. apply (Hj2 _ _ E2). }
  subst h'. exists (TD it (td_keys d) (td_slices d)). unfold r_iop, r_op. rewrite (r_new_self _ Hk _ _ Hfr).
  rewrite !(r_arith_arr_dict f _ h d c a ds Hfr Hj Hc W Ed Eds). fold o. rewrite K1 at 1 3. rewrite E.
  split; [reflexivity|]. split; [reflexivity|]. exists (ewc f c (shaped c ds)). split; [exact Ec|].
  split; [apply ewc_keys, (F2_len _ _ _ Es)|]. split.
  - clear - Es. induction Es as [|p b c bs E HF IH]; cbn; [reflexivity|]. f_equal. exact IH.
  - split; [apply ewc_wf; assumption|]. rewrite (packed_ewc f c (shaped c ds)) by (eapply matches_len; eassumption).
    rewrite shaped_data, <- Ed by assumption. reflexivity.
Qed.

(** NumPy values in a TFCDictRobust: unpacking raises as soon as two entries are non-empty. *)
Lemma c34_numpy np (h : heap) (d : tdict) c a :
  fresh r_refresh h d -> forallb is_jax (map snd (td_items d)) = false -> contents h d = Some c ->
  Forall (fun p => wf (snd p)) c -> a_data a = packed c ->
  (exists k1 a1 k2 a2, In (k1, a1) c /\ In (k2, a2) c /\ k1 <> k2 /\ a_data a1 <> [] /\ a_data a2 <> []) ->
  r_toDict keq np h d a = (h, None).
Proof.
  intros Hfr Hj Hc W Ha (k1 & a1 & k2 & a2 & H1 & H2 & Hne & N1 & N2).
  pose proof (fresh_keys _ _ _ Hfr) as Hn. destruct Hfr as [_ Hr].
  destruct (contents_ld _ _ _ Hc) as [_ Ek].
  unfold r_refresh, r_getSlices in Hr. rewrite Hj in Hr. cbn in Hr. apply some_inj in Hr.
  unfold r_toDict. cbn [flatten flat a_data].
  rewrite (mapM_None _ _ (k1, None)); [reflexivity| |].
  - rewrite <- Hr. cbn [td_keys td_slices]. rewrite map_length.
    assert (Hi : In k1 (map fst (td_items d))) by (rewrite Ek; apply (in_map fst) in H1; exact H1).
    clear - Hi. revert Hi. induction (td_items d) as [|p l IH]; cbn; [tauto|].
    intros [<-|Hi]; [left; reflexivity|]. right. apply IH. exact Hi.
  - unfold r_pick. cbn [fst snd]. destruct (contents_get _ Hk _ _ _ _ _ Hn Hc H1) as (v & -> & Lv).
    cbn [bind]. rewrite Lv. cbn [bind]. unfold reshape, pick. cbn [a_data].
    destruct (Nat.eqb_spec (length (a_data a)) (nprod (a_shape a1))) as [E|]; [|reflexivity].
    exfalso. rewrite Forall_forall in W. pose proof (W _ H1) as W1. red in W1. cbn in W1.
    rewrite <- W1, Ha, packed_length in E.
    assert (length (a_data a1) + length (a_data a2) <= list_sum (map (fun p => length (a_data (snd p))) c)).
    { clear - H1 H2 Hne. induction c as [|p c IH]; [contradiction|]. cbn.
      change (fold_right Nat.add 0 (map (fun p => length (a_data (snd p))) c)) with (list_sum (map (fun p => length (a_data (snd p))) c)).
      assert (Hle : forall k (x : arr), In (k, x) c -> length (a_data x) <= list_sum (map (fun p => length (a_data (snd p))) c)).
      { clear. intros k x. induction c as [|p c IH]; [intros []|]. cbn. intros [->|Hi]; cbn; [lia|].
        specialize (IH Hi). unfold list_sum in IH. lia. }
      destruct H1 as [->|H1], H2 as [E2|H2].
      - congruence.
      - cbn. specialize (Hle _ _ H2). lia.
      - subst p. cbn. specialize (Hle _ _ H1). lia.
      - specialize (IH H1 H2). lia. }
    destruct (a_data a2); [contradiction|]. cbn in H. lia.
Qed.

(** ** C33: bookkeeping *)
Lemma mut_step_NoDup refresh (h : heap) (d d' : tdict) o :
  (forall it x, refresh h it = Some x -> td_items x = it) ->
  NoDup (map fst (td_items d)) -> mut_step keq refresh h d o = Some d' -> NoDup (map fst (td_items d')).
Proof.
  intros Hrf Hn. destruct o; cbn.
  - intros [= <-]. apply (od_set_NoDup _ Hk). assumption.
  - destruct (od_get (td_items d) k); cbn; [|discriminate]. intros [= <-]. apply od_del_NoDup. assumption.
  - intros [= <-]. cbn. destruct (od_get (td_items d) k); [assumption|]. apply (od_set_NoDup _ Hk). assumption.
  - intros [= <-]. constructor.
  - destruct (od_move keq (td_items d) k last) eqn:E; cbn; [|discriminate]. intros [= <-]. cbn.
    eapply (od_move_NoDup _ Hk); eassumption.
  - intros [= <-]. apply (od_update_NoDup _ Hk). assumption.
  - intros E. rewrite (Hrf _ _ E). apply (od_update_NoDup _ Hk). assumption.
Qed.
Lemma mut_run_NoDup refresh (h : heap) l : (forall it x, refresh h it = Some x -> td_items x = it) -> forall (d d' : tdict),
  NoDup (map fst (td_items d)) -> mut_run keq refresh h d l = Some d' -> NoDup (map fst (td_items d')).
Proof.
  intros Hrf. induction l as [|o l IH]; intros d d' Hn; cbn; [intros [= <-]; assumption|].
  destruct (mut_step keq refresh h d o) as [d1|] eqn:E; cbn; [|discriminate].
  apply IH. eapply mut_step_NoDup; eassumption.
Qed.
Lemma mut_run_app refresh (h : heap) l1 l2 : forall (d : tdict),
  mut_run keq refresh h d (l1 ++ l2) = (d1 <- mut_run keq refresh h d l1 ;; mut_run keq refresh h d1 l2).
Proof.
  induction l1 as [|o l1 IH]; intros d; cbn; [reflexivity|].
  destruct (mut_step keq refresh h d o); cbn; [apply IH|reflexivity].
Qed.

(** Mutations that leave the layout alone: assigning to a present key an array of the same
    length (TFCDict), [setdefault] of a present key, [update]. *)
Definition harmless (h : heap) (d : tdict) (o : @mut T K) : Prop :=
  match o with
  | MSet k v => exists v0 n, od_get (td_items d) k = Some v0 /\ len0 h v0 = Some n /\ len0 h v = Some n
  | MSetDefault k _ => In k (map fst (td_items d))
  | MUpdate _ => True
  | _ => False
  end.
Lemma len0_is_arr (h : heap) (v : val) n : len0 h v = Some n -> is_arr v = true.
Proof. destruct v; cbn; [reflexivity|reflexivity|discriminate]. Qed.
Lemma od_set_slices (h : heap) (it : items) k v v0 n :
  od_get it k = Some v0 -> len0 h v0 = Some n -> len0 h v = Some n ->
  forallb is_arr (map snd (od_set it k v)) = forallb is_arr (map snd it) /\
  mapM (len0 h) (map snd (od_set it k v)) = mapM (len0 h) (map snd it) /\
  length (od_set it k v) = length it.
Proof.
  intros E E0 E1. induction it as [|[k' v'] it IH]; [discriminate|]. cbn in *.
  destruct (keq k' k).
  - injection E as ->. cbn. rewrite E0, E1, (len0_is_arr _ _ _ E0), (len0_is_arr _ _ _ E1). auto.
  - cbn. destruct (IH E) as (I1 & I2 & I3). rewrite I1, I2, I3. auto.
Qed.
Lemma c33_harmless (h : heap) (d d' : tdict) o : fresh d_refresh h d -> harmless h d o ->
  mut_step keq d_refresh h d o = Some d' -> fresh d_refresh h d'.
Proof.
  intros Hfr Hh E. assert (Hrf : forall (it : items) x, d_refresh h it = Some x -> td_items x = it).
  { intros it x H. apply (d_refresh_items _ _ _ H). }
  split; [eapply (mut_step_NoDup d_refresh h); try eassumption; apply Hfr|].
  destruct Hfr as [Hn Hr]. destruct o; cbn in Hh, E; try contradiction.
  - destruct Hh as (v0 & n & G & L0 & L1). injection E as <-. cbn [td_items].
    destruct (od_set_slices h _ _ v _ _ G L0 L1) as (I1 & I2 & I3).
    assert (Ek : map fst (od_set (td_items d) k v) = map fst (td_items d)).
    { apply (od_set_keys_in _ Hk). apply (od_get_In _ Hk) in G. apply (in_map fst) in G. exact G. }
    unfold d_refresh, d_getSlices in *. rewrite I1, I2, Ek, map_length, I3. rewrite map_length in Hr.
    destruct (forallb is_arr _); [destruct (mapM (len0 h) (map snd (td_items d))); [|discriminate]|];
    cbn in *; apply some_inj in Hr; apply (f_equal (fun x => (td_keys x, td_slices x))) in Hr; cbn in Hr; injection Hr as <- <-; reflexivity.
  - injection E as <-. cbn. destruct (od_get (td_items d) k) eqn:G.
    + destruct d; exact Hr.
    + apply (od_get_None _ Hk) in G. contradiction.
  - rewrite (Hrf _ _ E). assumption.
Qed.
(** Whatever happened before, [update] sets the bookkeeping right. *)
Lemma c33_update (h : heap) (d d' : tdict) l x : NoDup (map fst (td_items d)) ->
  mut_run keq d_refresh h d (l ++ [MUpdate x]) = Some d' -> fresh d_refresh h d'.
Proof.
  intros Hn. assert (Hrf : forall (it : items) x, d_refresh h it = Some x -> td_items x = it).
  { intros it y H. apply (d_refresh_items _ _ _ H). }
  intros E. split; [eapply (mut_run_NoDup d_refresh); eassumption|].
  rewrite mut_run_app in E. destruct (mut_run keq d_refresh h d l) as [d1|]; cbn in E; [|discriminate].
  destruct (d_refresh h (od_update keq (td_items d1) x)) as [d2|] eqn:E2; cbn in E; [|discriminate].
  injection E as <-. rewrite (Hrf _ _ E2). assumption.
Qed.
Lemma c33_update_r (h : heap) (d d' : tdict) l x : NoDup (map fst (td_items d)) ->
  mut_run keq r_refresh h d (l ++ [MUpdate x]) = Some d' -> fresh r_refresh h d'.
Proof.
  intros Hn. assert (Hrf : forall (it : items) x, r_refresh h it = Some x -> td_items x = it).
  { intros it y H. apply (r_refresh_items _ _ _ H). }
  intros E. split; [eapply (mut_run_NoDup r_refresh); eassumption|].
  rewrite mut_run_app in E. destruct (mut_run keq r_refresh h d l) as [d1|]; cbn in E; [|discriminate].
  destruct (r_refresh h (od_update keq (td_items d1) x)) as [d2|] eqn:E2; cbn in E; [|discriminate].
  injection E as <-. rewrite (Hrf _ _ E2). assumption.
Qed.
Lemma r_new_fresh (h : heap) l d : r_new keq h l = Some d -> fresh r_refresh h d.
Proof.
  unfold r_new. intros H. destruct (r_refresh_items _ _ _ H) as [E _].
  split; rewrite E; [apply (od_update_NoDup _ Hk); constructor|assumption].
Qed.
(** A key added by item assignment is never unpacked and never updated. *)
Lemma map_fst_combine_incl {A B} (l : list A) (m : list B) x : In x (map fst (combine l m)) -> In x l.
Proof. intros H. apply in_map_iff in H. destruct H as [[a b] [<- H]]. apply in_combine_l in H. exact H. Qed.
Lemma od_update_keys_incl l : forall (d : items) x, In x (map fst (od_update keq d l)) -> In x (map fst d) \/ In x (map fst l).
Proof.
  induction l as [|p l IH]; intros d x H; [left; exact H|]. cbn in H. apply IH in H. cbn.
  destruct H as [H|H]; [|tauto]. rewrite od_set_keys in H. destruct (existsb _ _); [tauto|].
  apply in_app_iff in H. cbn in H. tauto.
Qed.
Lemma c33_new_key_lost np (h : heap) (d : tdict) k v a h' d' : fresh d_refresh h d -> ~ In k (map fst (td_items d)) ->
  d_toDict keq np h (TD (od_set (td_items d) k v) (td_keys d) (td_slices d)) a = (h', Some d') ->
  ~ In k (map fst (td_items d')).
Proof.
  intros [Hn Hr] Hnew. unfold d_toDict. cbn [td_slices td_keys].
  destruct (alloc np h _) as [h1 vs]. intros [= <- E] Hi. unfold d_new in E.
  destruct (d_refresh_items _ _ _ E) as [Ei _]. rewrite Ei in Hi. apply od_update_keys_incl in Hi.
  destruct Hi as [[]|Hi]. apply map_fst_combine_incl in Hi.
  destruct (d_refresh_items _ _ _ Hr) as [_ Ek]. rewrite Ek in Hi. contradiction.
Qed.

(** ** C35: pytrees *)
Lemma c35_roundtrip (refresh : heap -> items -> option tdict) (h : heap) (d : tdict) :
  fresh refresh h d ->
  tree_unflatten (fun h l => refresh h (od_update keq [] l)) h (snd (tree_flatten d)) (fst (tree_flatten d)) = Some d.
Proof.
  intros [Hn Hr]. unfold tree_unflatten, tree_flatten. cbn [fst snd]. rewrite combine_fst_snd, (od_init _ Hk) by assumption. exact Hr.
Qed.
Lemma c35_map (refresh : heap -> items -> option tdict) (h : heap) (d : tdict) g :
  NoDup (map fst (td_items d)) ->
  tree_map (fun h l => refresh h (od_update keq [] l)) h g d
  = refresh h (map (fun p => (fst p, g (snd p))) (td_items d)).
Proof.
  intros Hn. unfold tree_map, tree_unflatten, tree_flatten.
  assert (E : combine (map fst (td_items d)) (map g (map snd (td_items d))) = map (fun p => (fst p, g (snd p))) (td_items d)).
  { clear. induction (td_items d) as [|[k v] l IH]; cbn; congruence. }
  rewrite E, (od_init _ Hk); [reflexivity|]. rewrite map_map. exact Hn.
Qed.
Lemma c35_map_robust (h : heap) (d : tdict) g : NoDup (map fst (td_items d)) ->
  exists d', tree_map (r_new keq) h g d = Some d' /\ td_items d' = map (fun p => (fst p, g (snd p))) (td_items d) /\
    td_keys d' = map fst (td_items d) /\ fresh r_refresh h d'.
Proof.
  intros Hn. pose proof (c35_map r_refresh h d g Hn) as E. fold (@r_new T K keq) in E. rewrite E.
  destruct (r_refresh_total h (map (fun p => (fst p, g (snd p))) (td_items d))) as [s Es]. rewrite Es.
  eexists. split; [reflexivity|]. cbn. split; [reflexivity|]. rewrite map_map. cbn. split; [reflexivity|].
  split; cbn; [rewrite map_map; exact Hn|]. rewrite Es, map_map. reflexivity.
Qed.
Lemma d_refresh_ok (h : heap) (it : items) : (forall k v, In (k, v) it -> exists a n s, ld h v = Some a /\ a_shape a = n :: s) ->
  exists s, d_refresh h it = Some (TD it (map fst it) s).
Proof.
  intros H. unfold d_refresh, d_getSlices.
  destruct (forallb is_arr (map snd it)); [|cbn; eauto].
  assert (exists lens, mapM (len0 h) (map snd it) = Some lens) as [lens ->].
  { induction it as [|[k v] it IH]; cbn; [eauto|]. destruct (H k v (or_introl eq_refl)) as (a & n & s & L & E).
    unfold len0 at 1. rewrite L. cbn. rewrite E. cbn.
    destruct IH as [lens ->]; [intros; eapply H; right; eassumption|]. cbn. eauto. }
  cbn. eauto.
Qed.
Lemma c35_map_dict (h : heap) (d : tdict) g : NoDup (map fst (td_items d)) ->
  (forall k v, In (k, v) (td_items d) -> exists a n s, ld h (g v) = Some a /\ a_shape a = n :: s) ->
  exists d', tree_map (d_new keq) h g d = Some d' /\ td_items d' = map (fun p => (fst p, g (snd p))) (td_items d) /\
    td_keys d' = map fst (td_items d) /\ fresh d_refresh h d'.
Proof.
  intros Hn Hg. pose proof (c35_map d_refresh h d g Hn) as E. fold (@d_new T K keq) in E. rewrite E.
  destruct (d_refresh_ok h (map (fun p => (fst p, g (snd p))) (td_items d))) as [s Es].
  { intros k v Hi. apply in_map_iff in Hi. destruct Hi as ([k0 v0] & [= <- <-] & Hi). eauto. }
  rewrite Es. eexists. split; [reflexivity|]. cbn. split; [reflexivity|]. rewrite map_map. cbn. split; [reflexivity|].
  split; cbn; [rewrite map_map; exact Hn|]. rewrite Es, map_map. reflexivity.
Qed.

(** In-place arithmetic on equal layouts keeps the bookkeeping right. *)
Lemma ewc_1d f (c : list (K * arr)) bs : Forall (fun p => is1d (snd p)) c ->
  Forall2 (fun p b => length (a_data b) = length (a_data (snd p))) c bs ->
  Forall (fun p => is1d (snd p)) (ewc f c bs) /\
  map (fun p => length (a_data (snd p))) (ewc f c bs) = map (fun p => length (a_data (snd p))) c.
Proof.
  intros H HF. revert H. induction HF as [|[k a] b c bs E HF IH]; intros H; cbn; [split; constructor|].
  inversion H as [|? ? H1 H2]; subst. destruct (IH H2) as [I1 I2]. cbn in *.
  assert (El : length (zip2 f (a_data a) (a_data b)) = length (a_data a)) by (apply zip2_len; congruence).
  split; [constructor; [|exact I1]|].
  - red. cbn. rewrite El. exact H1.
  - rewrite El. f_equal. exact I2.
Qed.
Lemma c33_arith f (h : heap) (d : tdict) c o bs h' d' :
  fresh d_refresh h d -> contents h d = Some c -> Forall (fun p => is1d (snd p)) c ->
  NoDup (map fst o) -> matches h c o bs -> Forall wf bs -> unshared (td_items d) o ->
  d_iop keq f h d (ODict o) = (h', d', Done) -> fresh d_refresh h' d'.
Proof.
  intros Hfr Hc Hf Ho Hm W2 Hu E.
  assert (W1 : Forall (fun p => wf (snd p)) c) by (eapply Forall_impl; [|exact Hf]; intros p; apply is1d_wf).
  pose proof (fresh_keys _ _ _ Hfr) as Hn. destruct (fresh_1d _ _ _ Hfr Hc Hf) as (K1 & K2 & K3).
  destruct (aug_dict_ok _ Hk f h (td_items d) c o bs Hn Hc Ho Hm W1 W2 Hu) as (h1 & it & E1 & Ek & Ec & _).
  unfold d_iop in E. cbn [d_arith] in E. rewrite K1, E1 in E. injection E as <- <-.
  pose proof (matches_len _ _ _ _ Hm W1 W2) as HF.
  destruct (ewc_1d f c bs Hf HF) as [I1 I2].
  split; cbn [td_items]; [rewrite Ek; assumption|]. rewrite (d_refresh_1d _ _ _ Ec I1).
  rewrite map_map, I2, K3, ewc_keys, K2 by (apply (F2_len _ _ _ HF)). reflexivity.
Qed.
End D.
