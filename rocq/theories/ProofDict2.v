From Coq Require Import List Arith Bool Lia.
From Verif Require Import Base ModelDict SpecDict ProofDict.
Import ListNotations.

Section D.
Context {T K : Type} (keq : K -> K -> bool) (Hk : keq_ok keq).
Notation arr := (@arr T). Notation val := (@val T). Notation heap := (@heap T).
Notation tdict := (@tdict T K). Notation items := (list (K * val)).
Notation od_get := (od_get keq). Notation od_set := (od_set keq).

Lemma zip2_len f (l1 l2 : list T) : length l1 = length l2 -> length (zip2 f l1 l2) = length l1.
Proof. intros H. unfold zip2. rewrite map_length, combine_length. lia. Qed.
Lemma ew_wf f (a b : arr) : wf a -> wf b -> a_shape b = a_shape a -> wf (ew f a b).
Proof. unfold wf. intros Ha Hb E. cbn. rewrite zip2_len; [assumption|]. rewrite Ha, Hb, E. reflexivity. Qed.

(** ** One augmented assignment *)
Lemma iop_same f (h : heap) x y a b :
  ld h x = Some a -> ld h y = Some b -> wf a -> wf b -> a_shape b = a_shape a ->
  exists h' z, iop f h x y = (h', Some z) /\ ld h' z = Some (ew f a b) /\
    ((h' = h /\ is_jax z = true) \/
     exists l l', x = Np l /\ y = Np l' /\ z = Np l /\ h' = store h l (ew f a b)).
Proof.
  intros Hx Hy Wa Wb E. pose proof (bc_op_same f a b Wa Wb E) as Eb.
  destruct x as [xa|l|n]; [| |discriminate].
  - exists h, (Jax (ew f a b)). cbn [iop]. rewrite Hx, Hy, Eb. repeat split. left. split; reflexivity.
  - destruct y as [ya|l'|n]; [| |discriminate].
    + exists h, (Jax (ew f a b)). cbn [iop]. rewrite Hx, Hy, Eb. repeat split. left. split; reflexivity.
    + exists (store h l (ew f a b)), (Np l). cbn [iop]. rewrite Hx, Hy, Eb. cbn [ew a_shape].
      rewrite shape_eqb_refl. split; [reflexivity|]. split.
      * cbn. rewrite store_nth, Nat.eqb_refl. cbn in Hx. rewrite Hx. reflexivity.
      * right. exists l, l'. auto.
Qed.
Lemma iop_heap f (h : heap) x y :
  ~ (exists l l', x = Np l /\ y = Np l') -> fst (iop f h x y) = h.
Proof.
  intros H. destruct x as [xa|l|n]; destruct y as [ya|l'|n']; cbn;
  try (exfalso; apply H; exists l, l'; auto; fail); try reflexivity.
  - destruct (nth_error h l'); reflexivity.
  - destruct (nth_error h l); reflexivity.
  - destruct (nth_error h l); reflexivity.
Qed.
Lemma ld_store_other (h : heap) l c v : v <> Np l -> ld (store h l c) v = ld h v.
Proof.
  destruct v as [a|l'|n]; cbn; try reflexivity. intros H. rewrite store_nth.
  destruct (Nat.eqb_spec l l'); [subst; congruence|reflexivity].
Qed.

(** ** The loop over keys *)
Section Loop.
Variables (f : T -> T -> T) (d0 o : items) (h0 : heap).
Hypothesis Hgood : forall k v, od_get d0 k = Some v -> exists y a b,
  od_get o k = Some y /\ ld h0 v = Some a /\ ld h0 y = Some b /\ wf a /\ wf b /\ a_shape b = a_shape a.
Hypothesis Hun : unshared d0 o.

Definition inv (h : heap) (tgt : items) (todo : list K) : Prop :=
  map fst tgt = map fst d0 /\
  forall k v y a b, od_get d0 k = Some v -> od_get o k = Some y -> ld h0 v = Some a -> ld h0 y = Some b ->
    exists v', od_get tgt k = Some v' /\
      (In k todo -> v' = v /\ ld h v = Some a /\ ld h y = Some b) /\
      (~ In k todo -> ld h v' = Some (ew f a b) /\ (v' = v \/ is_jax v' = true)).

Lemma loop_ok : forall todo h tgt, NoDup todo -> incl todo (map fst d0) -> inv h tgt todo ->
  exists h' tgt', aug_dict keq f h tgt todo o = (h', tgt', Done) /\ inv h' tgt' [].
Proof.
  induction todo as [|k todo IH]; intros h tgt Hnd Hin Hi.
  - exists h, tgt. split; [reflexivity|exact Hi].
  - inversion Hnd as [|? ? Hk1 Hnd']; subst.
    destruct (od_get d0 k) as [v|] eqn:Ev.
    2: { exfalso. apply (od_get_None _ Hk) in Ev. apply Ev. apply Hin. left. reflexivity. }
    destruct (Hgood k v Ev) as (y & a & b & Ey & Ea & Eb & Wa & Wb & Es).
    destruct Hi as [Hkeys Hi]. destruct (Hi k v y a b Ev Ey Ea Eb) as (v' & Et & Htodo & _).
    destruct (Htodo (or_introl eq_refl)) as (-> & La & Lb).
    destruct (iop_same f h v y a b La Lb Wa Wb Es) as (h' & z & Eop & Lz & Hcase).
    cbn [aug_dict]. unfold aug. rewrite Et, Ey, Eop.
    apply IH; [assumption|intros x Hx; apply Hin; right; assumption|].
    split.
    { rewrite (od_set_keys_in _ Hk); [assumption|]. rewrite Hkeys. apply Hin. left. reflexivity. }
    intros k1 v1 y1 a1 b1 E1 F1 A1 B1.
    destruct (keq_dec _ Hk k k1) as [<-|Hne].
    + exists z. rewrite (od_get_set _ Hk), (keq_refl _ Hk).
      assert (v1 = v) by congruence. assert (y1 = y) by congruence. subst v1 y1.
      assert (a1 = a) by congruence. assert (b1 = b) by congruence. subst a1 b1.
      split; [reflexivity|]. split; [intros Hx; contradiction|]. intros _. split; [assumption|].
      destruct Hcase as [[_ J]|(l & l' & -> & _ & -> & _)]; [right; assumption|left; reflexivity].
    + destruct (Hi k1 v1 y1 a1 b1 E1 F1 A1 B1) as (v1' & Et1 & Ht1 & Hnt1).
      exists v1'. rewrite (od_get_set _ Hk), (keq_neq _ Hk) by assumption. split; [assumption|].
      destruct Hcase as [[-> J]|(l & l' & -> & -> & -> & ->)].
      * split; [intros Hx; apply Ht1; right; assumption|].
        intros Hx. apply Hnt1. intros [->|Hx']; [contradiction|contradiction].
      * assert (Hv1 : v1 <> Np l).
        { intros ->. apply Hne. apply (Hun k k1 l l'); [| |left]; apply (od_get_In _ Hk); assumption. }
        assert (Hy1 : y1 <> Np l).
        { intros ->. apply Hne. apply (Hun k k1 l l'); [| |right]; apply (od_get_In _ Hk); assumption. }
        split.
        -- intros Hx. destruct (Ht1 (or_intror Hx)) as (-> & L1 & L2).
           rewrite !ld_store_other by assumption. auto.
        -- intros Hx. destruct Hnt1 as [L1 Hj].
           { intros [->|Hx']; contradiction. }
           split; [|assumption]. rewrite ld_store_other; [assumption|].
           destruct Hj as [->|Hj]; [assumption|]. intros ->. discriminate.
Qed.
End Loop.

Lemma contents_pointwise (h : heap) (d : items) (c : list (K * arr)) :
  NoDup (map fst d) -> map fst d = map fst c ->
  (forall k a, In (k, a) c -> exists v, od_get d k = Some v /\ ld h v = Some a) ->
  contents_of h d = Some c.
Proof.
  revert c. induction d as [|[k v] d IH]; intros [|[k' a] c] Hn E H; cbn in *; try discriminate; [reflexivity|].
  injection E as <- E. inversion Hn as [|? ? H1 H2]; subst.
  destruct (H k a (or_introl eq_refl)) as (v' & Ev & L). rewrite (keq_refl _ Hk) in Ev. injection Ev as <-.
  cbn. unfold contents_of. cbn. rewrite L. cbn. fold (contents_of h d). rewrite (IH c H2 E); [reflexivity|].
  intros k1 a1 Hi. destruct (H k1 a1 (or_intror Hi)) as (v1 & E1 & L1).
  rewrite (keq_neq _ Hk) in E1; [eauto|]. intros <-. apply H1. rewrite E. apply (in_map fst) in Hi. exact Hi.
Qed.
Lemma contents_get (h : heap) (d : items) c k a : NoDup (map fst d) -> contents_of h d = Some c -> In (k, a) c ->
  exists v, od_get d k = Some v /\ ld h v = Some a.
Proof.
  intros Hn Hc Hi. unfold contents_of in Hc. apply mapM_Forall2 in Hc.
  assert (exists v, In (k, v) d /\ ld h v = Some a) as (v & Hv & L).
  { clear Hn. induction Hc as [|[k1 v1] [k2 a2] d c E Hc IH]; [contradiction|].
    destruct Hi as [[= <- <-]|Hi].
    - cbn in E. destruct (ld h v1) eqn:L; [|discriminate]. cbn in E. injection E as <- <-.
      exists v1. split; [left; reflexivity|assumption].
    - destruct (IH Hi) as (v & Hv & L). exists v. split; [right|]; assumption. }
  exists v. split; [apply (In_od_get _ Hk); assumption|assumption].
Qed.
Lemma contents_get_inv (h : heap) (d : items) c k v : contents_of h d = Some c -> od_get d k = Some v ->
  exists a, In (k, a) c /\ ld h v = Some a.
Proof.
  intros Hc Hg. apply (od_get_In _ Hk) in Hg. unfold contents_of in Hc. apply mapM_Forall2 in Hc.
  induction Hc as [|[k1 v1] [k2 a2] d c E Hc IH]; [contradiction|].
  destruct Hg as [[= -> ->]|Hg].
  - cbn in E. destruct (ld h v) eqn:L; [|discriminate]. cbn in E. injection E as <- <-.
    exists a. split; [left; reflexivity|reflexivity].
  - destruct (IH Hg) as (a & Ha & L). exists a. split; [right|]; assumption.
Qed.

Lemma ewc_keys f (c : list (K * arr)) bs : length c = length bs -> map fst (ewc f c bs) = map fst c.
Proof.
  revert bs. induction c as [|[k a] c IH]; intros [|b bs]; cbn; intros; try discriminate; f_equal.
  apply IH. lia.
Qed.
Lemma ewc_wf f (c : list (K * arr)) bs : Forall (fun p => wf (snd p)) c -> Forall wf bs ->
  Forall2 (fun p b => a_shape b = a_shape (snd p)) c bs -> Forall (fun p => wf (snd p)) (ewc f c bs).
Proof.
  intros W1 W2 HF. revert W1 W2. induction HF as [|[k a] b c bs E HF IH]; intros W1 W2; cbn; [constructor|].
  inversion W1; inversion W2; subst. constructor; [apply ew_wf; assumption|apply IH; assumption].
Qed.
Lemma In_ewc f (c : list (K * arr)) bs k a : In (k, a) (ewc f c bs) ->
  exists a0 b, In ((k, a0), b) (combine c bs) /\ a = ew f a0 b.
Proof.
  unfold ewc. intros H. apply in_map_iff in H. destruct H as [[[k0 a0] b] [[= <- <-] H]]. eauto.
Qed.
Lemma F2_len {A B} (R : A -> B -> Prop) l m : Forall2 R l m -> length l = length m.
Proof. induction 1; cbn; congruence. Qed.
Lemma F2_impl {A B} (R R' : A -> B -> Prop) l m : (forall x y, R x y -> R' x y) -> Forall2 R l m -> Forall2 R' l m.
Proof. intros H. induction 1; constructor; auto. Qed.
Lemma F2_In {A B} (R : A -> B -> Prop) l m x y : Forall2 R l m -> In (x, y) (combine l m) -> R x y.
Proof. induction 1; cbn; [tauto|]. intros [[= <- <-]|H']; auto. Qed.
Lemma F2_In_l {A B} (R : A -> B -> Prop) l m x : Forall2 R l m -> In x l -> exists y, In (x, y) (combine l m) /\ R x y.
Proof.
  induction 1 as [|a b l m H HF IH]; cbn; [tauto|]. intros [<-|Hi]; [eauto|].
  destruct (IH Hi) as (y & H1 & H2). eauto.
Qed.

(** C31, dictionary operand. *)
Lemma aug_dict_ok f (h : heap) (d : items) c o bs :
  NoDup (map fst d) -> contents_of h d = Some c -> NoDup (map fst o) -> matches h c o bs ->
  Forall (fun p => wf (snd p)) c -> Forall wf bs -> unshared d o ->
  exists h' d', aug_dict keq f h d (map fst d) o = (h', d', Done) /\ map fst d' = map fst d /\
    contents_of h' d' = Some (ewc f c bs) /\
    (forall k v, od_get d k = Some v -> exists v', od_get d' k = Some v' /\ (v' = v \/ is_jax v' = true)).
Proof.
  intros Hn Hc Ho Hm Wc Wb Hu. rewrite Forall_forall in Wc, Wb.
  assert (Hgood : forall k v, od_get d k = Some v -> exists y a b,
    In ((k, a), b) (combine c bs) /\
    od_get o k = Some y /\ ld h v = Some a /\ ld h y = Some b /\ wf a /\ wf b /\ a_shape b = a_shape a).
  { intros k v Hg. destruct (contents_get_inv _ _ _ _ _ Hc Hg) as (a & Ha & La).
    destruct (F2_In_l _ _ _ _ Hm Ha) as (b & Hcb & y & Hy & Ly & Es). cbn in Hy.
    exists y, a, b. split; [assumption|]. split; [apply (In_od_get _ Hk); assumption|].
    split; [assumption|]. split; [assumption|]. split; [apply (Wc _ Ha)|].
    split; [|assumption]. apply Wb. apply in_combine_r in Hcb. exact Hcb. }
  destruct (loop_ok f d o h) with (todo := map fst d) (h := h) (tgt := d) as (h' & d' & E & Hi).
  - intros k v Hg. destruct (Hgood k v Hg) as (y & a & b & _ & H). eauto.
  - exact Hu.
  - exact Hn.
  - intros x Hx; exact Hx.
  - split; [reflexivity|]. intros k v y a b E1 E2 E3 E4. exists v. split; [assumption|].
    split; [auto|]. intros Hx. exfalso. apply Hx. apply (od_get_In _ Hk) in E1. apply (in_map fst) in E1. exact E1.
  - exists h', d'. split; [assumption|]. destruct Hi as [Hkeys Hi]. split; [assumption|]. split.
    + apply contents_pointwise.
      * rewrite Hkeys. assumption.
      * rewrite ewc_keys by (apply (F2_len _ _ _ Hm)). destruct (contents_ld _ _ _ Hc) as [_ <-]. assumption.
      * intros k a Ha. apply In_ewc in Ha. destruct Ha as (a0 & b & Hcb & ->).
        pose proof (in_combine_l _ _ _ _ Hcb) as Hcl.
        destruct (contents_get _ _ _ _ _ Hn Hc Hcl) as (v & Ev & Lv).
        destruct (F2_In _ _ _ _ _ Hm Hcb) as (y & Hy & Ly & Es). cbn in Hy.
        destruct (Hi k v y a0 b Ev) as (v' & Ev' & _ & Hfin); auto.
        { apply (In_od_get _ Hk); assumption. }
        exists v'. split; [assumption|]. apply Hfin. intros [].
    + intros k v Ev. destruct (Hgood k v Ev) as (y & a & b & _ & E2 & E3 & E4 & _).
      destruct (Hi k v y a b Ev E2 E3 E4) as (v' & Ev' & _ & Hfin). exists v'. split; [assumption|].
      apply Hfin. intros [].
Qed.

(** The heap does not change when no NumPy array meets a NumPy operand. *)
Lemma aug_dict_heap f o : forall ks (h : heap) (tgt : items), NoDup ks ->
  (forall k, In k ks -> ~ exists l l', od_get tgt k = Some (Np l) /\ od_get o k = Some (Np l')) ->
  fst (fst (aug_dict keq f h tgt ks o)) = h.
Proof.
  induction ks as [|k ks IH]; intros h tgt Hn H; [reflexivity|].
  inversion Hn as [|? ? H1 H2]; subst. cbn [aug_dict]. unfold aug.
  destruct (od_get tgt k) as [x|] eqn:Ex; [|reflexivity].
  destruct (od_get o k) as [y|] eqn:Ey; [|reflexivity].
  pose proof (iop_heap f h x y) as Hh. destruct (iop f h x y) as [h' [z|]]; cbn in Hh.
  - rewrite Hh.
    + apply IH; [assumption|]. intros k' Hk' (l & l' & E1 & E2).
      rewrite (od_get_set _ Hk), (keq_neq _ Hk) in E1 by (intros ->; contradiction).
      apply (H k' (or_intror Hk')). eauto.
    + intros (l & l' & -> & ->). apply (H k (or_introl eq_refl)). eauto.
  - cbn. apply Hh. intros (l & l' & -> & ->). apply (H k (or_introl eq_refl)). eauto.
Qed.

(** A jax operand array acts as the dictionary of its slices. *)
Lemma aug_arr_dict f (rhs : heap -> items -> K * option (nat * nat) -> option val) (tgt0 : items) (g : K * option (nat * nat) -> arr) o h :
  forall ks tgt, NoDup (map fst ks) ->
  (forall p, In p ks -> od_get o (fst p) = Some (Jax (g p))) ->
  (forall p tgt', In p ks -> od_get tgt' (fst p) = od_get tgt0 (fst p) -> rhs h tgt' p = Some (Jax (g p))) ->
  (forall p, In p ks -> od_get tgt (fst p) = od_get tgt0 (fst p)) ->
  aug_arr keq f rhs h tgt ks = aug_dict keq f h tgt (map fst ks) o.
Proof.
  induction ks as [|p ks IH]; intros tgt Hn Ho Hr Ht; [reflexivity|].
  inversion Hn as [|? ? H1 H2]; subst. cbn [aug_arr aug_dict map].
  rewrite (Hr p tgt (or_introl eq_refl) (Ht p (or_introl eq_refl))).
  rewrite (Ho p (or_introl eq_refl)). unfold aug.
  destruct (od_get tgt (fst p)) as [x|] eqn:Ex; [|reflexivity].
  pose proof (iop_heap f h x (Jax (g p))) as Hh. destruct (iop f h x (Jax (g p))) as [h' [z|]]; [|reflexivity].
  cbn in Hh. rewrite Hh by (intros (l & l' & _ & E); discriminate). apply IH.
  - assumption.
  - intros q Hq. apply Ho. right. assumption.
  - intros q tgt' Hq. apply Hr. right. assumption.
  - intros q Hq. rewrite (od_get_set _ Hk), (keq_neq _ Hk).
    + apply Ht. right. assumption.
    + intros E. apply H1. rewrite E. apply in_map. assumption.
Qed.

Lemma od_get_combine (ks : list K) (vs : list val) p : NoDup ks -> length ks = length vs -> In p (combine ks vs) ->
  od_get (combine ks vs) (fst p) = Some (snd p).
Proof.
  intros Hn El Hp. apply (In_od_get _ Hk); [rewrite map_fst_combine by assumption; assumption|].
  destruct p; assumption.
Qed.
Lemma od_get_map_combine {X} (ks : list K) (xs : list X) (g : K * X -> val) p :
  NoDup ks -> length ks = length xs -> In p (combine ks xs) ->
  od_get (map (fun p => (fst p, g p)) (combine ks xs)) (fst p) = Some (g p).
Proof.
  intros Hn El Hp. apply (In_od_get _ Hk).
  - rewrite map_map. cbn. change (NoDup (map fst (combine ks xs))). rewrite map_fst_combine by assumption. assumption.
  - apply in_map_iff. exists p. split; [reflexivity|assumption].
Qed.

(** Lengths: the packed view of an entrywise operation. *)
Lemma zip2_app f (a a' b b' : list T) : length a = length b -> zip2 f (a ++ a') (b ++ b') = zip2 f a b ++ zip2 f a' b'.
Proof.
  revert b. induction a as [|x a IH]; intros [|y b]; cbn; intros; try discriminate; [reflexivity|].
  unfold zip2 in *. cbn. f_equal. apply IH. lia.
Qed.
Lemma packed_ewc f (c : list (K * arr)) bs :
  Forall2 (fun p b => length (a_data b) = length (a_data (snd p))) c bs ->
  packed (ewc f c bs) = zip2 f (packed c) (concat (map a_data bs)).
Proof.
  induction 1 as [|[k a] b c bs E HF IH]; [reflexivity|]. unfold packed in *. cbn [ewc combine map fst snd concat ew a_data] in *.
  rewrite zip2_app by (symmetry; exact E). f_equal. exact IH.
Qed.
Lemma matches_len (h : heap) (c : list (K * arr)) o bs : matches h c o bs -> Forall (fun p => wf (snd p)) c -> Forall wf bs ->
  Forall2 (fun p b => length (a_data b) = length (a_data (snd p))) c bs.
Proof.
  unfold matches. induction 1 as [|p b c bs (y & _ & _ & E) HF IH]; intros W1 W2; [constructor|].
  inversion W1; subst. inversion W2; subst. constructor; [|auto].
  unfold wf in *. congruence.
Qed.

(** The slices of a fresh TFCDict of one-dimensional arrays. *)
Lemma fresh_1d (h : heap) (d : tdict) c : fresh d_refresh h d -> contents h d = Some c -> Forall (fun p => is1d (snd p)) c ->
  td_keys d = map fst (td_items d) /\ map fst (td_items d) = map fst c /\
  td_slices d = slices_from 0 (map (fun p => length (a_data (snd p))) c).
Proof.
  intros [_ Hr] Hc Hf. unfold contents in Hc. destruct (contents_ld _ _ _ Hc) as [_ Ek].
  rewrite (d_refresh_1d _ _ _ Hc Hf) in Hr. apply some_inj in Hr. rewrite <- Hr. cbn.
  rewrite map_map. auto.
Qed.
Lemma fresh_robust (h : heap) (d : tdict) c : fresh r_refresh h d -> contents h d = Some c ->
  forallb is_jax (map snd (td_items d)) = true ->
  td_keys d = map fst (td_items d) /\ map fst (td_items d) = map fst c /\
  td_slices d = slices_from 0 (map (fun p => length (a_data (snd p))) c).
Proof.
  intros [_ Hr] Hc Hj. unfold contents in Hc. destruct (contents_ld _ _ _ Hc) as [E1 Ek].
  unfold r_refresh, r_getSlices in Hr. rewrite Hj in Hr.
  assert (E : mapM (fun v => a <- ld h v ;; Some (length (a_data (flatten a)))) (map snd (td_items d))
              = Some (map (fun p => length (a_data (snd p))) c)).
  { rewrite <- (map_map snd (fun a => length (a_data a))). revert E1. generalize (map snd (td_items d)) (map snd c). clear.
    induction l as [|v vs IH]; intros l'; cbn [mapM map]; [intros [= <-]; reflexivity|].
    destruct (ld h v); cbn [bind]; [|discriminate]. destruct (mapM (ld h) vs) as [r|]; cbn [bind]; [|discriminate].
    intros [= <-]. rewrite (IH r eq_refl). reflexivity. }
  rewrite E in Hr. cbn in Hr. apply some_inj in Hr. rewrite <- Hr. cbn. auto.
Qed.

(** C31, array operand. *)
Lemma d_arith_arr_dict f (h : heap) (d : tdict) (tgt : tdict) a :
  NoDup (td_keys d) -> length (td_keys d) = length (td_slices d) ->
  d_arith keq f h d tgt (OJax a) =
  aug_dict keq f h (td_items tgt) (td_keys d)
    (map (fun p => (fst p, Jax (pick (a_data a) (snd p)))) (combine (td_keys d) (td_slices d))).
Proof.
  intros Hn El. cbn [d_arith flatten flat a_data].
  rewrite (aug_arr_dict f _ (td_items tgt) (fun p => pick (a_data a) (snd p))
             (map (fun p => (fst p, Jax (pick (a_data a) (snd p)))) (combine (td_keys d) (td_slices d)))).
  - rewrite map_fst_combine by assumption. reflexivity.
  - rewrite map_fst_combine by assumption. assumption.
  - intros p Hp. apply (od_get_map_combine _ _ (fun p => Jax (pick (a_data a) (snd p)))); assumption.
  - reflexivity.
  - reflexivity.
Qed.
Lemma pieces_matches (h : heap) (c : list (K * arr)) (ds : list (list T)) :
  map (@length T) ds = map (fun p => length (a_data (snd p))) c -> Forall (fun p => is1d (snd p)) c ->
  matches h c (map (fun p => (fst p, Jax (pick (concat ds) (snd p))))
                   (combine (map fst c) (slices_from 0 (map (@length T) ds)))) (map flat ds).
Proof.
  intros El Hf. pose proof (pick_slices0 ds) as Ep.
  rewrite <- (combine_fst_snd (map _ (combine _ _))), !map_map. cbn.
  assert (Elen : length (map fst c) = length (slices_from 0 (map (@length T) ds))).
  { rewrite slices_from_length, El, !map_length. reflexivity. }
  change (map (fun x : K * option (nat * nat) => fst x) (combine (map fst c) (slices_from 0 (map (@length T) ds))))
    with (map fst (combine (map fst c) (slices_from 0 (map (@length T) ds)))).
  rewrite map_fst_combine by assumption.
  replace (map (fun x => Jax (pick (concat ds) (snd x))) (combine (map fst c) (slices_from 0 (map (@length T) ds))))
    with (map (fun l : list T => @Jax T (flat l)) ds).
  2: { rewrite <- (map_map snd (fun s => Jax (pick (concat ds) s))), map_snd_combine by assumption.
       rewrite <- (map_map (pick (concat ds)) Jax), Ep, map_map. reflexivity. }
  clear Ep Elen. revert ds El. induction Hf as [|[k a] c Ha Hf IH]; intros [|l ds] El; cbn in *; try discriminate; [constructor|].
  injection El as El1 El2. constructor.
  - exists (Jax (flat l)). cbn. split; [left; reflexivity|]. split; [reflexivity|]. rewrite Ha. congruence.
  - specialize (IH ds El2). eapply F2_impl; [|exact IH]. cbn. intros p b (y & H1 & H2).
    exists y. split; [right; assumption|assumption].
Qed.
Lemma unshared_jax (d : items) (o : items) : (forall k l, ~ In (k, Np l) o) -> unshared d o.
Proof. intros H1 k k' l l' _ Ho _. exfalso. eapply H1; eassumption. Qed.

Lemma map_key_jax {X} (g : K * X -> arr) (l : list (K * X)) k n :
  ~ In (k, Np n) (map (fun p => (fst p, Jax (g p))) l).
Proof. intros H. apply in_map_iff in H. destruct H as (p & E & _). congruence. Qed.

(** Both operators of TFCDict on a packed jax array of the right size. *)
Lemma d_arr_ok f (h : heap) (d : tdict) c a :
  fresh d_refresh h d -> contents h d = Some c -> Forall (fun p => is1d (snd p)) c ->
  length (a_data a) = length (packed c) ->
  exists it bs, d_arith keq f h d d (OJax a) = (h, it, Done) /\ map fst it = map fst (td_items d) /\
    contents_of h it = Some (ewc f c bs) /\ packed (ewc f c bs) = zip2 f (packed c) (a_data a) /\
    Forall2 (fun p b => a_shape b = a_shape (snd p)) c bs /\ Forall wf bs.
Proof.
  intros Hfr Hc Hf Hl. destruct (fresh_1d _ _ _ Hfr Hc Hf) as (K1 & K2 & K3).
  rewrite packed_length in Hl. destruct (split_lens _ _ Hl) as (ds & Ed & Eds).
  pose proof (fresh_keys _ _ _ Hfr) as Hn.
  rewrite d_arith_arr_dict.
  2: rewrite K1; assumption.
  2: { rewrite K1, K2, K3, slices_from_length, !map_length. reflexivity. }
  set (o := map (fun p => (fst p, Jax (pick (a_data a) (snd p)))) (combine (td_keys d) (td_slices d))).
  assert (Hm : matches h c o (map flat ds)).
  { unfold o. rewrite Ed, K1, K2, K3, <- Eds. apply pieces_matches; assumption. }
  assert (W1 : Forall (fun p => wf (snd p)) c).
  { eapply Forall_impl; [|exact Hf]. intros p. apply is1d_wf. }
  assert (W2 : Forall wf (map (@flat T) ds)).
  { apply Forall_map, Forall_forall. intros x _. apply is1d_wf. reflexivity. }
  assert (Hj : forall k l, ~ In (k, Np l) o) by (intros; apply (map_key_jax (fun p => pick (a_data a) (snd p)))).
  destruct (aug_dict_ok f h (td_items d) c o (map flat ds)) as (h' & it & E & Ek & Ec & _); auto.
  { unfold o. rewrite map_map. cbn. change (NoDup (map fst (combine (td_keys d) (td_slices d)))).
    rewrite map_fst_combine; [rewrite K1; assumption|].
    rewrite K1, K2, K3, slices_from_length, !map_length. reflexivity. }
  { apply unshared_jax. exact Hj. }
  assert (h' = h).
  { pose proof (aug_dict_heap f o (map fst (td_items d)) h (td_items d) Hn) as Hh. rewrite E in Hh. apply Hh.
    intros k _ (l & l' & _ & E2). apply (od_get_In _ Hk) in E2. apply (Hj _ _ E2). }
  subst h'. exists it, (map flat ds). rewrite K1. split; [exact E|]. split; [exact Ek|]. split; [exact Ec|]. split.
  - rewrite (packed_ewc f c (map flat ds)) by (eapply matches_len; eassumption).
    rewrite map_map. cbn. rewrite map_id, <- Ed. reflexivity.
  - split; [|exact W2]. eapply F2_impl; [|exact Hm]. intros p b (y & _ & _ & H). exact H.
Qed.

(** ** Equivalence of [out = TFCDict(self)] with [self] *)
Lemma d_new_self (h : heap) (d : tdict) : fresh d_refresh h d -> d_new keq h (td_items d) = Some d.
Proof. intros [Hn Hr]. unfold d_new. rewrite (od_init _ Hk) by assumption. exact Hr. Qed.
Lemma r_new_self (h : heap) (d : tdict) : fresh r_refresh h d -> r_new keq h (td_items d) = Some d.
Proof. intros [Hn Hr]. unfold r_new. rewrite (od_init _ Hk) by assumption. exact Hr. Qed.

Lemma c31_array f (h : heap) (d : tdict) c a :
  fresh d_refresh h d -> contents h d = Some c -> Forall (fun p => is1d (snd p)) c ->
  length (a_data a) = length (packed c) ->
  exists d', d_iop keq f h d (OJax a) = (h, d', Done) /\ d_op keq f h d (OJax a) = (h, Some d') /\
  exists c', contents h d' = Some c' /\ map fst c' = map fst c /\
    map (fun p => a_shape (snd p)) c' = map (fun p => a_shape (snd p)) c /\
    Forall (fun p => wf (snd p)) c' /\ packed c' = zip2 f (packed c) (a_data a).
Proof.
  intros Hfr Hc Hf Hl. destruct (d_arr_ok f h d c a Hfr Hc Hf Hl) as (it & bs & E & Ek & Ec & Ep & Es & W2).
  exists (TD it (td_keys d) (td_slices d)). unfold d_iop, d_op. rewrite (d_new_self _ _ Hfr), E.
  split; [reflexivity|]. split; [reflexivity|]. exists (ewc f c bs). split; [exact Ec|].
  split; [apply ewc_keys, (F2_len _ _ _ Es)|]. split.
  2: { split; [|exact Ep]. apply ewc_wf; [|assumption|assumption]. eapply Forall_impl; [|exact Hf]. intros p. apply is1d_wf. }
  clear - Es. induction Es as [|p b c bs E HF IH]; cbn; [reflexivity|]. f_equal. exact IH.
Qed.
Lemma c31_dict f (h : heap) (d : tdict) c o bs :
  fresh d_refresh h d -> contents h d = Some c -> NoDup (map fst o) -> matches h c o bs ->
  Forall (fun p => wf (snd p)) c -> Forall wf bs -> unshared (td_items d) o ->
  exists h' d', d_iop keq f h d (ODict o) = (h', d', Done) /\ d_op keq f h d (ODict o) = (h', Some d') /\
    contents h' d' = Some (ewc f c bs) /\
    packed (ewc f c bs) = zip2 f (packed c) (concat (map a_data bs)).
Proof.
  intros Hfr Hc Ho Hm W1 W2 Hu. pose proof (fresh_keys _ _ _ Hfr) as Hn.
  destruct (aug_dict_ok f h (td_items d) c o bs Hn Hc Ho Hm W1 W2 Hu) as (h' & it & E & Ek & Ec & _).
  exists h', (TD it (td_keys d) (td_slices d)). unfold d_iop, d_op. rewrite (d_new_self _ _ Hfr). cbn [d_arith].
  destruct Hfr as [_ Hr]. destruct (d_refresh_items _ _ _ Hr) as [_ Kd]. rewrite Kd, E.
  repeat split; [exact Ec|]. apply packed_ewc. eapply matches_len; eassumption.
Qed.
Lemma c31_robust_dict f (h : heap) (d : tdict) c o bs :
  fresh r_refresh h d -> contents h d = Some c -> NoDup (map fst o) -> matches h c o bs ->
  Forall (fun p => wf (snd p)) c -> Forall wf bs -> unshared (td_items d) o ->
  exists h' d', r_iop keq f h d (ODict o) = (h', d', Done) /\ r_op keq f h d (ODict o) = (h', Some d') /\
    contents h' d' = Some (ewc f c bs) /\
    packed (ewc f c bs) = zip2 f (packed c) (concat (map a_data bs)).
Proof.
  intros Hfr Hc Ho Hm W1 W2 Hu. pose proof (fresh_keys _ _ _ Hfr) as Hn.
  destruct (aug_dict_ok f h (td_items d) c o bs Hn Hc Ho Hm W1 W2 Hu) as (h' & it & E & Ek & Ec & _).
  exists h', (TD it (td_keys d) (td_slices d)). unfold r_iop, r_op. rewrite (r_new_self _ _ Hfr). cbn [r_arith].
  destruct Hfr as [_ Hr]. destruct (r_refresh_items _ _ _ Hr) as [_ Kd]. rewrite Kd, E.
  repeat split; [exact Ec|]. apply packed_ewc. eapply matches_len; eassumption.
Qed.

(** C32 *)
Lemma c32_safe f (h : heap) (d : tdict) o :
  fresh d_refresh h d ->
  (forall od k l l', o = ODict od -> In (k, Np l) (td_items d) -> od_get od k = Some (Np l') -> False) ->
  fst (d_op keq f h d o) = h.
Proof.
  intros Hfr Hs. unfold d_op. rewrite (d_new_self _ _ Hfr).
  pose proof (fresh_keys _ _ _ Hfr) as Hn. destruct Hfr as [_ Hr]. destruct (d_refresh_items _ _ _ Hr) as [_ Kd].
  destruct o as [od|a|l|]; try reflexivity.
  - cbn [d_arith]. pose proof (aug_dict_heap f od (td_keys d) h (td_items d)) as H.
    rewrite Kd in H. specialize (H Hn). rewrite Kd.
    destruct (aug_dict keq f h (td_items d) (map fst (td_items d)) od) as [[h' it] [|]]; cbn in *;
    apply H; intros k _ (l & l' & E1 & E2); apply (od_get_In _ Hk) in E1; eapply Hs; eauto.
  - rewrite d_arith_arr_dict.
    + set (od := map _ (combine _ _)). pose proof (aug_dict_heap f od (td_keys d) h (td_items d)) as H.
      rewrite Kd in H. specialize (H Hn). rewrite Kd.
      destruct (aug_dict keq f h (td_items d) (map fst (td_items d)) od) as [[h' it] [|]]; cbn in *;
      apply H; intros k _ (l & l' & _ & E2); apply (od_get_In _ Hk) in E2;
      apply (map_key_jax (fun p => pick (a_data a) (snd p))) in E2; exact E2.
    + rewrite Kd. assumption.
    + unfold d_refresh, d_getSlices in Hr.
      destruct (forallb is_arr _); [destruct (mapM (len0 h) (map snd (td_items d))) as [lens|] eqn:E; [|discriminate]|];
      cbn in Hr; apply some_inj in Hr; rewrite <- Hr; cbn.
      * rewrite slices_from_length. apply mapM_length in E. rewrite E, !map_length. reflexivity.
      * rewrite repeat_length, !map_length. reflexivity.
Qed.
(** When NumPy meets NumPy, the operand on the left becomes the sum. *)
Lemma c32_mutates f (h : heap) (d : tdict) c o bs :
  fresh d_refresh h d -> contents h d = Some c -> NoDup (map fst o) -> matches h c o bs ->
  Forall (fun p => wf (snd p)) c -> Forall wf bs -> unshared (td_items d) o ->
  (forall k v, In (k, v) (td_items d) -> exists l, v = Np l) ->
  (forall k v, In (k, v) o -> exists l, v = Np l) ->
  exists h' d', d_op keq f h d (ODict o) = (h', Some d') /\ contents h' d = contents h' d' /\
    contents h' d = Some (ewc f c bs).
Proof.
  intros Hfr Hc Ho Hm W1 W2 Hu Hd2 Ho2. pose proof (fresh_keys _ _ _ Hfr) as Hn.
  assert (Hnp : forall ks h0 tgt, (forall k v, In (k, v) tgt -> exists l, v = Np l) ->
     snd (fst (aug_dict keq f h0 tgt ks o)) = tgt).
  { induction ks as [|k ks IH]; intros h0 tgt Ht; [reflexivity|]. cbn [aug_dict]. unfold aug.
    destruct (od_get tgt k) as [x|] eqn:Ex; [|reflexivity]. destruct (od_get o k) as [y|] eqn:Ey; [|reflexivity].
    pose proof (od_get_In _ Hk _ _ _ Ex) as Hx. destruct (Ht _ _ Hx) as [l ->].
    apply (od_get_In _ Hk) in Ey. destruct (Ho2 _ _ Ey) as [l' ->]. cbn [iop].
    destruct (ld h0 (Np l)); [|reflexivity]. destruct (ld h0 (Np l')); [|reflexivity].
    destruct (bc_op f _ _); [|reflexivity]. destruct (shape_eqb _ _); [|reflexivity].
    assert (Es : od_set tgt k (Np l) = tgt).
    { clear - Ex. induction tgt as [|[k1 v1] tgt IH]; cbn in *; [discriminate|].
      destruct (keq k1 k); [congruence|]. rewrite IH by assumption. reflexivity. }
    rewrite Es. apply IH. exact Ht. }
  destruct (c31_dict f h d c o bs Hfr Hc Ho Hm W1 W2 Hu) as (h' & d' & Ei & E & Ec & _).
  exists h', d'. split; [exact E|].
  assert (td_items d' = td_items d).
  { unfold d_op in E. rewrite (d_new_self _ _ Hfr) in E. cbn [d_arith] in E.
    specialize (Hnp (td_keys d) h (td_items d) Hd2). destruct (aug_dict _ _ _ _ _ _) as [[h1 it] [|]]; [|discriminate].
    injection E as <- <-. cbn in *. exact Hnp. }
  unfold contents in *. rewrite <- H at 1. split; [reflexivity|]. rewrite <- H. exact Ec.
Qed.
End D.
