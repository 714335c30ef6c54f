(** Which lists of pairs a TFCDict accepts, what it then holds, and packing of scalars. *)
From Coq Require Import List Arith Bool Lia.
From Verif Require Import Base ModelDict SpecDict ProofDict.
Import ListNotations.

Section D.
Context {T K : Type} (keq : K -> K -> bool) (Hk : keq_ok keq).
Notation arr := (@arr T). Notation val := (@val T). Notation heap := (@heap T).
Notation items := (list (K * val)). Notation tdict := (@tdict T K).

Lemma update_get (l : items) : forall (d : items) k v, od_get keq (od_update keq d l) k = Some v <->
  last_val l k v \/ (~ In k (map fst l) /\ od_get keq d k = Some v).
Proof.
  unfold od_update. induction l as [|[k0 v0] l IH] using rev_ind; intros d k v.
  - cbn. split; [auto|]. intros [(l1 & l2 & E & _)|[_ H]]; [destruct l1; discriminate|exact H].
  - rewrite fold_left_app. cbn [fold_left fst snd]. rewrite (od_get_set keq Hk), map_app. cbn [map fst].
    destruct (keq_dec keq Hk k0 k) as [->|Hne].
    + rewrite (proj2 (Hk k k) eq_refl). split.
      * intros [= <-]. left. exists l, []. auto.
      * intros [(l1 & l2 & E & Hn)|[Hn _]]; [|destruct Hn; apply in_or_app; right; left; reflexivity].
        destruct l2 as [|p l2 _] using rev_ind; [apply app_inj_tail in E as [_ [= ->]]; reflexivity|].
        rewrite app_comm_cons, app_assoc in E. apply app_inj_tail in E as [_ <-]. destruct Hn. rewrite map_app. apply in_or_app. right. left. reflexivity.
    + replace (keq k0 k) with false by (destruct (keq k0 k) eqn:E; [apply Hk in E; contradiction|reflexivity]). rewrite IH. split.
      * intros [(l1 & l2 & -> & Hn)|[Hn H]].
        -- left. exists l1, (l2 ++ [(k0, v0)]). rewrite <- app_assoc. split; [reflexivity|]. rewrite map_app. intros Hi.
           apply in_app_or in Hi as [Hi|[Hi|[]]]; [exact (Hn Hi)|exact (Hne Hi)].
        -- right. split; [|exact H]. intros Hi. apply in_app_or in Hi as [Hi|[Hi|[]]]; [exact (Hn Hi)|exact (Hne Hi)].
      * intros [(l1 & l2 & E & Hn)|[Hn H]].
        -- left. destruct l2 as [|p l2 _] using rev_ind; [apply app_inj_tail in E as [_ [= -> _]]; congruence|].
           rewrite app_comm_cons, app_assoc in E. apply app_inj_tail in E as [-> _]. exists l1, l2. split; [reflexivity|]. intros Hi. apply Hn. rewrite map_app. apply in_or_app. auto.
        -- right. split; [|exact H]. intros Hi. apply Hn. apply in_or_app. auto.
Qed.
Lemma new_items (l : items) k v : In (k, v) (od_update keq [] l) <-> last_val l k v.
Proof.
  assert (NoDup (map fst (od_update keq [] l))) as Hn by (apply (od_update_NoDup keq Hk); constructor).
  assert (od_get keq (od_update keq [] l) k = Some v <-> last_val l k v) as H.
  { rewrite update_get. cbn. split; [intros [H|[_ H]]; [exact H|discriminate]|auto]. }
  rewrite <- H. split; [apply (In_od_get keq Hk); exact Hn|apply (od_get_In keq Hk)].
Qed.
Lemma d_new_items (h : heap) l d : d_new keq h l = Some d -> forall k v, In (k, v) (td_items d) <-> last_val l k v.
Proof. intros H k v. apply d_refresh_items in H as [-> _]. apply new_items. Qed.

Lemma mapM_none_inv {A B} (f : A -> option B) l : mapM f l = None -> exists x, In x l /\ f x = None.
Proof.
  induction l as [|a l IH]; cbn; [discriminate|]. destruct (f a) eqn:E; [|exists a; auto]. cbn. destruct (mapM f l); [discriminate|].
  intros _. destruct (IH eq_refl) as [x [? ?]]. exists x. auto.
Qed.
Lemma d_new_none (h : heap) l : (forall k loc, In (k, Np loc) l -> loc < length h) ->
  (d_new keq h l = None <-> (forall k v, last_val l k v -> ld h v <> None) /\
                            exists k v a, last_val l k v /\ ld h v = Some a /\ a_shape a = []).
Proof.
  intros Hl. unfold d_new, d_refresh, d_getSlices. set (d := od_update keq [] l).
  assert (Hd : forall k v, In (k, v) d <-> last_val l k v) by apply new_items.
  assert (Hld : forall k v, last_val l k v -> (ld h v <> None <-> is_arr v = true)).
  { intros k [a|loc|n] (l1 & l2 & -> & _); cbn; split; intros H; try congruence; try discriminate.
    apply nth_error_Some, (Hl k). apply in_elt. }
  destruct (forallb is_arr (map snd d)) eqn:Ea.
  - rewrite forallb_forall in Ea. split.
    + intros E. destruct (mapM (len0 h) (map snd d)) as [ls|] eqn:Em; [discriminate|]. clear E.
      assert (forall k v, last_val l k v -> ld h v <> None) as HA.
      { intros k v H. apply (Hld k v H), Ea, in_map_iff. exists (k, v). split; [reflexivity|]. apply Hd, H. }
      split; [exact HA|]. apply mapM_none_inv in Em as [v [Hi E]]. apply in_map_iff in Hi as [[k v'] [[= ->] Hi]].
      apply Hd in Hi. specialize (HA k v Hi). unfold len0 in E. destruct (ld h v) as [a|] eqn:E'; [|congruence]. cbn in E.
      exists k, v, a. split; [exact Hi|]. split; [exact E'|]. destruct (a_shape a); [reflexivity|discriminate].
    + intros [_ (k & v & a & Hi & E & Es)]. rewrite (mapM_None _ _ v); [reflexivity| |unfold len0; rewrite E; cbn; rewrite Es; reflexivity].
      apply in_map_iff. exists (k, v). split; [reflexivity|]. apply Hd, Hi.
  - split; [discriminate|]. intros [HA _]. exfalso. assert (forallb is_arr (map snd d) = true) as Et; [|congruence].
    apply forallb_forall. intros v Hi. apply in_map_iff in Hi as [[k v'] [[= ->] Hi]]. apply Hd in Hi. apply (Hld k v Hi), (HA k v Hi).
Qed.

(** scalars are packed as one entry *)
Lemma hstack_scalars (l : list arr) : l <> [] -> Forall (fun a => is1d a \/ (a_shape a = [] /\ wf a)) l -> hstack l = Some (flat (concat (map a_data l))).
Proof.
  intros Hn Hf. unfold hstack.
  assert (hstack0 (map at_least_1d l) = Some (flat (concat (map a_data (map at_least_1d l))))) as E.
  { assert (Forall (fun a => length (a_shape a) = 1) (map at_least_1d l)) as H1.
    { apply Forall_map. revert Hf. apply Forall_impl. intros a [H|[H _]]; unfold at_least_1d; rewrite H; [rewrite H|]; reflexivity. }
    destruct (map at_least_1d l) as [|a0 m] eqn:E; [destruct l; [contradiction|discriminate]|]. unfold hstack0.
    rewrite Forall_forall in H1. pose proof (H1 a0 (or_introl eq_refl)) as H0.
    assert (forallb (fun a => length (a_shape a) =? 1) (a0 :: m) = true) as Hb by (apply forallb_forall; intros a Hi; apply Nat.eqb_eq, H1, Hi).
    destruct (a_shape a0) as [|r [|? ?]] eqn:E0; cbn in H0; try discriminate. rewrite Hb. reflexivity. }
  rewrite E, map_map. do 3 f_equal. apply map_ext. intros a. unfold at_least_1d. destruct (a_shape a); reflexivity.
Qed.
Lemma d_toArray_scalars (h : heap) (d : tdict) c : contents h d = Some c -> c <> [] ->
  Forall (fun p => is1d (snd p) \/ (a_shape (snd p) = [] /\ wf (snd p))) c -> d_toArray h d = Some (flat (packed c)).
Proof.
  intros Hc Hn Hf. unfold d_toArray. destruct (contents_ld _ _ _ Hc) as [E1 _]. rewrite E1. cbn [bind]. rewrite hstack_scalars.
  - rewrite map_map. reflexivity.
  - destruct c; [contradiction|discriminate].
  - apply Forall_map. exact Hf.
Qed.
End D.
