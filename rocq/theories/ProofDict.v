From Coq Require Import List Arith Bool Lia Permutation.
From Verif Require Import Base ModelDict SpecDict.
Import ListNotations.

(** ** mapM *)
Lemma mapM_ext {A B} (f g : A -> option B) l :
  (forall x, In x l -> f x = g x) -> mapM f l = mapM g l.
Proof.
  induction l as [|x l IH]; intros H; cbn; [reflexivity|].
  rewrite (H x) by (left; reflexivity). rewrite IH by (intros; apply H; right; assumption). reflexivity.
Qed.
Lemma mapM_map {A B C} (g : A -> B) (f : B -> option C) l : mapM f (map g l) = mapM (fun x => f (g x)) l.
Proof. induction l as [|x l IH]; cbn; [reflexivity|]. rewrite IH. reflexivity. Qed.
Lemma mapM_Some {A B} (f : A -> B) l : mapM (fun x => Some (f x)) l = Some (map f l).
Proof. induction l as [|x l IH]; cbn; [reflexivity|]. rewrite IH. reflexivity. Qed.
Lemma mapM_Forall2 {A B} (f : A -> option B) l r :
  mapM f l = Some r <-> Forall2 (fun x y => f x = Some y) l r.
Proof.
  revert r. induction l as [|x l IH]; intros r; cbn.
  - split; [intros [= <-]; constructor|intros H; inversion H; reflexivity].
  - split.
    + destruct (f x) as [y|] eqn:E; cbn; [|discriminate].
      destruct (mapM f l) as [ys|] eqn:E2; cbn; [|discriminate].
      intros [= <-]. constructor; [assumption|]. apply IH. reflexivity.
    + intros H. inversion H as [|? ? ? ? H1 H2]; subst. rewrite H1. cbn.
      apply IH in H2. rewrite H2. reflexivity.
Qed.
Lemma mapM_length {A B} (f : A -> option B) l r : mapM f l = Some r -> length r = length l.
Proof. intros H. apply mapM_Forall2 in H. induction H; cbn; lia. Qed.
Lemma mapM_None {A B} (f : A -> option B) l x : In x l -> f x = None -> mapM f l = None.
Proof.
  induction l as [|y l IH]; cbn; [tauto|]. intros [<-|H] E; [rewrite E; reflexivity|].
  destruct (f y); cbn; [|reflexivity]. rewrite IH by assumption. reflexivity.
Qed.

Lemma firstn_app_exact {A} (a b : list A) : firstn (length a) (a ++ b) = a.
Proof. rewrite firstn_app, Nat.sub_diag, firstn_all, firstn_O, app_nil_r. reflexivity. Qed.
Lemma skipn_app_exact {A} (a b : list A) : skipn (length a) (a ++ b) = b.
Proof. rewrite skipn_app, Nat.sub_diag, skipn_all. reflexivity. Qed.

Lemma combine_map2 {A B C D} (f : A -> C) (g : B -> D) l m :
  combine (map f l) (map g m) = map (fun p => (f (fst p), g (snd p))) (combine l m).
Proof. revert m. induction l as [|x l IH]; intros [|y m]; cbn; try reflexivity. rewrite IH. reflexivity. Qed.
Lemma combine_self {A} (l : list A) : combine l l = map (fun x => (x, x)) l.
Proof. induction l; cbn; congruence. Qed.
Lemma combine_fst_snd {A B} (l : list (A * B)) : combine (map fst l) (map snd l) = l.
Proof. induction l as [|[a b] l IH]; cbn; congruence. Qed.
Lemma map_fst_combine {A B} (l : list A) (m : list B) : length l = length m -> map fst (combine l m) = l.
Proof. revert m. induction l as [|x l IH]; intros [|y m]; cbn; intros; try discriminate; f_equal; auto. Qed.
Lemma map_snd_combine {A B} (l : list A) (m : list B) : length l = length m -> map snd (combine l m) = m.
Proof. revert m. induction l as [|x l IH]; intros [|y m]; cbn; intros; try discriminate; f_equal; auto. Qed.

Lemma some_inj {A} (x y : A) : Some x = Some y -> x = y.
Proof. congruence. Qed.

Section D.
Context {T K : Type} (keq : K -> K -> bool) (Hk : keq_ok keq).
Notation arr := (@arr T). Notation val := (@val T). Notation heap := (@heap T).
Notation tdict := (@tdict T K). Notation items := (list (K * val)).
Notation od_get := (od_get keq). Notation od_set := (od_set keq). Notation od_del := (od_del keq).
Notation od_update := (od_update keq).

Lemma keq_refl k : keq k k = true. Proof. apply Hk. reflexivity. Qed.
Lemma keq_neq k k' : k <> k' -> keq k k' = false.
Proof. intros H. destruct (keq k k') eqn:E; [apply Hk in E; contradiction|reflexivity]. Qed.
Lemma keq_dec (k k' : K) : {k = k'} + {k <> k'}.
Proof. destruct (keq k k') eqn:E; [left; apply Hk; assumption|right; intros <-; rewrite keq_refl in E; discriminate]. Qed.

(** ** OrderedDict *)
Lemma od_get_In (d : items) k v : od_get d k = Some v -> In (k, v) d.
Proof.
  induction d as [|[k' v'] d IH]; cbn; [discriminate|].
  destruct (keq k' k) eqn:E; [apply Hk in E; intros [= <-]; subst; left; reflexivity|intros; right; auto].
Qed.
Lemma In_od_get (d : items) k v : NoDup (map fst d) -> In (k, v) d -> od_get d k = Some v.
Proof.
  induction d as [|[k' v'] d IH]; cbn; [tauto|]. intros Hn [[= <- <-]|H].
  - rewrite keq_refl. reflexivity.
  - inversion Hn as [|? ? H1 H2]; subst. rewrite keq_neq; [auto|].
    intros ->. apply H1. apply (in_map fst) in H. exact H.
Qed.
Lemma od_get_None (d : items) k : od_get d k = None <-> ~ In k (map fst d).
Proof.
  induction d as [|[k' v'] d IH]; cbn; [tauto|].
  destruct (keq k' k) eqn:E.
  - apply Hk in E. split; [discriminate|intros H; exfalso; apply H; left; assumption].
  - rewrite IH. split; [intros H [->|H']; [rewrite keq_refl in E; discriminate|tauto]|tauto].
Qed.
Lemma od_set_keys (d : items) k v :
  map fst (od_set d k v) = if existsb (fun x => keq x k) (map fst d) then map fst d else map fst d ++ [k].
Proof.
  induction d as [|[k' v'] d IH]; cbn; [reflexivity|].
  destruct (keq k' k) eqn:E; cbn; [reflexivity|].
  rewrite IH. destruct (existsb _ (map fst d)); reflexivity.
Qed.
Lemma existsb_keq ks k : existsb (fun x => keq x k) ks = true <-> In k ks.
Proof.
  rewrite existsb_exists. split; [intros [x [H E]]; apply Hk in E; subst; assumption|].
  intros H. exists k. split; [assumption|apply keq_refl].
Qed.
Lemma od_set_keys_in (d : items) k v : In k (map fst d) -> map fst (od_set d k v) = map fst d.
Proof. intros H. rewrite od_set_keys. apply existsb_keq in H. rewrite H. reflexivity. Qed.
Lemma od_set_keys_new (d : items) k v : ~ In k (map fst d) -> map fst (od_set d k v) = map fst d ++ [k].
Proof.
  intros H. rewrite od_set_keys. destruct (existsb _ _) eqn:E; [apply existsb_keq in E; contradiction|reflexivity].
Qed.
Lemma NoDup_snoc {X} (l : list X) x : NoDup l -> ~ In x l -> NoDup (l ++ [x]).
Proof.
  intros H1 H2. apply (Permutation_NoDup (l := x :: l)); [apply Permutation_cons_append|].
  constructor; assumption.
Qed.
Lemma od_set_NoDup (d : items) k v : NoDup (map fst d) -> NoDup (map fst (od_set d k v)).
Proof.
  intros H. destruct (in_dec keq_dec k (map fst d)) as [i|i].
  - rewrite od_set_keys_in by assumption. assumption.
  - rewrite od_set_keys_new by assumption. apply NoDup_snoc; assumption.
Qed.
Lemma od_update_NoDup l : forall (d : items), NoDup (map fst d) -> NoDup (map fst (od_update d l)).
Proof. induction l as [|p l IH]; intros d H; [exact H|]. apply (IH (od_set d (fst p) (snd p))). apply od_set_NoDup. exact H. Qed.
Lemma od_set_new (d : items) k v : ~ In k (map fst d) -> od_set d k v = d ++ [(k, v)].
Proof.
  induction d as [|[k' v'] d IH]; cbn; [reflexivity|]. intros H.
  rewrite keq_neq by (intros ->; apply H; left; reflexivity). rewrite IH by tauto. reflexivity.
Qed.
Lemma od_update_new l : forall (d : items), NoDup (map fst d ++ map fst l) -> od_update d l = d ++ l.
Proof.
  induction l as [|[k v] l IH]; intros d H; cbn; [rewrite app_nil_r; reflexivity|].
  cbn in H. rewrite od_set_new.
  2: { apply NoDup_remove_2 in H. rewrite in_app_iff in H. tauto. }
  fold (od_update (d ++ [(k, v)]) l). rewrite IH.
  - rewrite <- app_assoc. reflexivity.
  - rewrite map_app, <- app_assoc. exact H.
Qed.
Lemma od_init (l : items) : NoDup (map fst l) -> od_update [] l = l.
Proof. intros H. rewrite od_update_new; [reflexivity|exact H]. Qed.
Lemma od_get_set (d : items) k v k' : od_get (od_set d k v) k' = if keq k k' then Some v else od_get d k'.
Proof.
  induction d as [|[a b] d IH]; cbn.
  - reflexivity.
  - destruct (keq a k) eqn:E.
    + apply Hk in E; subst a. cbn. destruct (keq k k'); reflexivity.
    + cbn. rewrite IH. destruct (keq a k') eqn:E2; [|reflexivity].
      apply Hk in E2; subst a. destruct (keq k k') eqn:E3; [|reflexivity].
      apply Hk in E3; subst. rewrite keq_refl in E. discriminate.
Qed.
Lemma od_del_keys_sub (d : items) k x : In x (map fst (od_del d k)) -> In x (map fst d).
Proof. induction d as [|[a b] d IH]; cbn; [tauto|]. destruct (keq a k); cbn; tauto. Qed.
Lemma od_del_NoDup (d : items) k : NoDup (map fst d) -> NoDup (map fst (od_del d k)).
Proof.
  induction d as [|[a b] d IH]; cbn; [intros; constructor|]. intros H. inversion H as [|? ? H1 H2]; subst.
  destruct (keq a k); [assumption|]. cbn. constructor; [|auto].
  intros Hi. apply H1. eapply od_del_keys_sub. eassumption.
Qed.
Lemma od_del_gone (d : items) k : NoDup (map fst d) -> ~ In k (map fst (od_del d k)).
Proof.
  induction d as [|[a b] d IH]; cbn; [tauto|]. intros H. inversion H as [|? ? H1 H2]; subst.
  destruct (keq a k) eqn:E; [apply Hk in E; subst; assumption|].
  cbn. intros [->|Hi]; [rewrite keq_refl in E; discriminate|]. apply (IH H2 Hi).
Qed.
Lemma od_move_NoDup (d : items) k b d' : NoDup (map fst d) -> od_move keq d k b = Some d' -> NoDup (map fst d').
Proof.
  unfold od_move. destruct (od_get d k) as [v|]; cbn; [|discriminate]. intros H [= <-].
  pose proof (od_del_NoDup d k H) as H1. pose proof (od_del_gone d k H) as H2.
  destruct b; cbn; [rewrite map_app; apply NoDup_snoc; assumption|constructor; assumption].
Qed.

(** ** Arrays *)
Lemma hstack_1d (l : list arr) : l <> [] -> Forall is1d l -> hstack l = Some (flat (concat (map a_data l))).
Proof.
  intros Hl Hf. unfold hstack.
  assert (E : map at_least_1d l = l).
  { clear Hl. induction Hf as [|a l Ha Hf IH]; cbn; [reflexivity|]. rewrite IH. f_equal.
    unfold at_least_1d. rewrite Ha. destruct a; cbn in *. subst. reflexivity. }
  rewrite E. destruct l as [|a l]; [contradiction|]. cbn [hstack0].
  pose proof Hf as Hf'. inversion Hf as [|? ? Ha H]; subst. rewrite Ha.
  replace (forallb (fun a0 => length (a_shape a0) =? 1) (a :: l)) with true; [reflexivity|].
  symmetry. apply forallb_forall. intros x Hx. rewrite Forall_forall in Hf'. rewrite (Hf' x Hx). reflexivity.
Qed.

Lemma pick_slices (ds : list (list T)) : forall pre post,
  map (pick (pre ++ concat ds ++ post)) (slices_from (length pre) (map (@length T) ds)) = map flat ds.
Proof.
  induction ds as [|d ds IH]; intros pre post; cbn; [reflexivity|]. f_equal.
  - f_equal. unfold slice. replace (length pre + length d - length pre) with (length d) by lia.
    rewrite skipn_app_exact, <- app_assoc, firstn_app_exact. reflexivity.
  - specialize (IH (pre ++ d) post). rewrite app_length in IH.
    rewrite <- IH. rewrite <- !app_assoc. reflexivity.
Qed.
Lemma pick_slices0 (ds : list (list T)) :
  map (pick (concat ds)) (slices_from 0 (map (@length T) ds)) = map flat ds.
Proof. pose proof (pick_slices ds [] []) as H. cbn in H. rewrite app_nil_r in H. exact H. Qed.
Lemma split_lens (lens : list nat) : forall l : list T, length l = list_sum lens ->
  exists ds, l = concat ds /\ map (@length T) ds = lens.
Proof.
  induction lens as [|n lens IH]; intros l H.
  - exists []. destruct l; [split; reflexivity|discriminate].
  - cbn in H. destruct (IH (skipn n l)) as [ds [E1 E2]].
    { rewrite skipn_length. change (fold_right Nat.add 0 lens) with (list_sum lens) in H. lia. }
    exists (firstn n l :: ds). cbn. rewrite <- E1, firstn_skipn, E2, firstn_length. split; [reflexivity|].
    f_equal. lia.
Qed.
Lemma slices_from_length s lens : length (slices_from s lens) = length lens.
Proof. revert s. induction lens; intros; cbn; auto. Qed.

Lemma chunks_concat sz n : forall l : list T, length l = n * sz -> concat (chunks sz n l) = l.
Proof.
  induction n as [|n IH]; intros l H; cbn.
  - destruct l; [reflexivity|discriminate].
  - rewrite IH by (rewrite skipn_length; cbn in H; lia). apply firstn_skipn.
Qed.
Lemma chunks_len sz n : forall (l : list T), length l = n * sz -> Forall (fun r => length r = sz) (chunks sz n l).
Proof.
  induction n as [|n IH]; intros l H; cbn; constructor.
  - rewrite firstn_length. cbn in H. lia.
  - apply IH. rewrite skipn_length. cbn in H. lia.
Qed.
Lemma expand_self s : forall l : list T, length l = nprod s -> expand s s l = l.
Proof.
  induction s as [|d s IH]; intros l H; [reflexivity|]. cbn [expand]. rewrite Nat.eqb_refl.
  change (nprod (d :: s)) with (d * nprod s) in H.
  replace (map (expand s s) (chunks (nprod s) d l)) with (chunks (nprod s) d l).
  - apply chunks_concat. assumption.
  - pose proof (chunks_len _ _ _ H) as Hc. induction Hc as [|r rs Hr Hc IHc]; cbn; [reflexivity|].
    rewrite IH by assumption. f_equal. exact IHc.
Qed.
Lemma bc_shape_self s : bc_shape s s = Some s.
Proof.
  unfold bc_shape, pad. rewrite Nat.sub_diag. cbn. rewrite combine_self, mapM_map. cbn.
  rewrite (mapM_ext _ (fun x => Some x)).
  - rewrite mapM_Some, map_id. reflexivity.
  - intros x _. unfold bc_dim. rewrite Nat.eqb_refl. reflexivity.
Qed.
Lemma bc_op_same f (a b : arr) : wf a -> wf b -> a_shape b = a_shape a -> bc_op f a b = Some (ew f a b).
Proof.
  intros Ha Hb E. unfold bc_op. rewrite E, bc_shape_self. cbn [bind]. unfold pad. rewrite Nat.sub_diag.
  cbn [repeat app]. rewrite !expand_self by (first [exact Ha | rewrite <- E; exact Hb]). reflexivity.
Qed.
Lemma shape_eqb_refl s : shape_eqb s s = true.
Proof.
  unfold shape_eqb. rewrite Nat.eqb_refl, combine_self. cbn. apply forallb_forall.
  intros p Hp. apply in_map_iff in Hp. destruct Hp as [x [<- _]]. apply Nat.eqb_refl.
Qed.
Lemma is1d_wf (a : arr) : is1d a -> wf a.
Proof. unfold is1d, wf. intros ->. cbn. lia. Qed.

(** ** Heap *)
Lemma store_length (h : heap) l a : length (store h l a) = length h.
Proof. revert l. induction h; intros [|l]; cbn; auto. Qed.
Lemma store_nth (h : heap) l a l' :
  nth_error (store h l a) l' = if l =? l' then option_map (fun _ => a) (nth_error h l) else nth_error h l'.
Proof.
  revert l l'. induction h as [|b h IH]; intros [|l] [|l']; cbn; try reflexivity.
  - destruct (l =? l'); reflexivity.
  - apply IH.
Qed.
Lemma alloc_ld np (h h' : heap) l vs : alloc np h l = (h', vs) -> mapM (ld h') vs = Some l /\ length vs = length l.
Proof.
  unfold alloc. destruct np; intros [= <- <-].
  - split; [|rewrite map_length, seq_length; reflexivity].
    rewrite mapM_map. cbn. revert h. induction l as [|a l IH]; intros h; cbn; [reflexivity|].
    rewrite nth_error_app2, Nat.sub_diag by lia. cbn.
    specialize (IH (h ++ [a])). rewrite app_length, <- app_assoc in IH. cbn in IH. rewrite Nat.add_1_r in IH.
    rewrite IH. reflexivity.
  - split; [|apply map_length]. rewrite mapM_map. cbn. rewrite mapM_Some, map_id. reflexivity.
Qed.
Lemma alloc_old np (h h' : heap) l vs v a : alloc np h l = (h', vs) -> ld h v = Some a -> ld h' v = Some a.
Proof.
  unfold alloc. destruct np; intros [= <- <-]; [|auto]. destruct v; cbn; auto.
  intros H. rewrite nth_error_app1; [assumption|]. apply nth_error_Some. congruence.
Qed.
Lemma alloc_new np (h h' : heap) l vs : alloc np h l = (h', vs) ->
  forallb is_arr vs = true /\ (np = false -> forallb is_jax vs = true).
Proof.
  unfold alloc. destruct np; intros [= <- <-]; split; try discriminate; try (intros _);
  apply forallb_forall; intros x Hx; apply in_map_iff in Hx; destruct Hx as [y [<- _]]; reflexivity.
Qed.

Lemma contents_ld (h : heap) (d : items) c : contents_of h d = Some c ->
  mapM (ld h) (map snd d) = Some (map snd c) /\ map fst d = map fst c.
Proof.
  unfold contents_of. rewrite mapM_map. revert c. induction d as [|[k v] d IH]; intros c; cbn.
  - intros [= <-]. split; reflexivity.
  - destruct (ld h v) as [a|]; cbn; [|discriminate]. destruct (mapM _ d) as [c'|]; cbn; [|discriminate].
    intros [= <-]. destruct (IH c' eq_refl) as [E1 E2]. rewrite E1. cbn. split; congruence.
Qed.
Lemma ld_contents (h : heap) (ks : list K) vs l : mapM (ld h) vs = Some l -> length ks = length vs ->
  contents_of h (combine ks vs) = Some (combine ks l).
Proof.
  unfold contents_of. revert ks l. induction vs as [|v vs IH]; intros [|k ks] l; cbn; try discriminate.
  - intros [= <-] _. reflexivity.
  - destruct (ld h v); cbn; [|discriminate]. destruct (mapM (ld h) vs) as [l'|]; cbn; [|discriminate].
    intros [= <-] [= E]. rewrite (IH ks l' eq_refl E). reflexivity.
Qed.
Lemma contents_mono (h h' : heap) (d : items) c :
  (forall v a, ld h v = Some a -> ld h' v = Some a) -> contents_of h d = Some c -> contents_of h' d = Some c.
Proof.
  intros H. unfold contents_of. revert c. induction d as [|[k v] d IH]; intros c; cbn; [auto|].
  destruct (ld h v) as [a|] eqn:E; cbn; [|discriminate]. rewrite (H _ _ E). cbn.
  destruct (mapM _ d) as [c'|]; cbn; [|discriminate]. intros E2. rewrite (IH c' eq_refl). exact E2.
Qed.
Lemma contents_is_arr (h : heap) (d : items) c : contents_of h d = Some c -> forallb is_arr (map snd d) = true.
Proof.
  unfold contents_of. revert c. induction d as [|[k v] d IH]; intros c; cbn; [auto|].
  destruct v; cbn; try discriminate; (destruct (mapM _ d) eqn:E; [intros _; eapply IH; reflexivity|]); cbn; try discriminate.
  destruct (nth_error h l); discriminate.
Qed.
Lemma fresh_keys (refresh : heap -> items -> option tdict) h d : fresh refresh h d -> NoDup (map fst (td_items d)).
Proof. intros [H _]. exact H. Qed.

(** ** TFCDict *)
Lemma len0_1d (h : heap) vs l : mapM (ld h) vs = Some l -> Forall is1d l ->
  mapM (len0 h) vs = Some (map (fun a => length (a_data a)) l).
Proof.
  revert l. induction vs as [|v vs IH]; intros l; cbn.
  - intros [= <-] _. reflexivity.
  - unfold len0 at 1. destruct (ld h v) as [a|]; cbn; [|discriminate].
    destruct (mapM (ld h) vs) as [l'|]; cbn; [|discriminate]. intros [= <-] Hf.
    inversion Hf as [|? ? Ha Hf']; subst. rewrite Ha. cbn. rewrite (IH l' eq_refl Hf'). reflexivity.
Qed.
Lemma d_refresh_1d (h : heap) (d : items) c : contents_of h d = Some c -> Forall (fun p => is1d (snd p)) c ->
  d_refresh h d = Some (TD d (map fst c) (slices_from 0 (map (@length T) (map (fun p => a_data (snd p)) c)))).
Proof.
  intros Hc Hf. unfold d_refresh, d_getSlices. rewrite (contents_is_arr _ _ _ Hc).
  destruct (contents_ld _ _ _ Hc) as [E1 E2]. rewrite (len0_1d _ _ _ E1).
  - cbn. rewrite E2, !map_map. reflexivity.
  - apply Forall_map. exact Hf.
Qed.
Lemma d_new_fresh (h : heap) l d : d_new keq h l = Some d -> fresh d_refresh h d.
Proof.
  unfold d_new. intros H. assert (E : td_items d = od_update [] l).
  { unfold d_refresh in H. destruct (d_getSlices _ _); cbn in H; [|discriminate]. injection H as <-. reflexivity. }
  split; rewrite E; [apply od_update_NoDup; constructor|assumption].
Qed.
Lemma d_refresh_items (h : heap) (l : items) d : d_refresh h l = Some d -> td_items d = l /\ td_keys d = map fst l.
Proof.
  unfold d_refresh. destruct (d_getSlices _ _); cbn; [|discriminate]. intros [= <-]. split; reflexivity.
Qed.
Lemma r_refresh_items (h : heap) (l : items) d : r_refresh h l = Some d -> td_items d = l /\ td_keys d = map fst l.
Proof.
  unfold r_refresh. destruct (r_getSlices _ _); cbn; [|discriminate]. intros [= <-]. split; reflexivity.
Qed.

Lemma d_toArray_1d (h : heap) (d : tdict) c : contents h d = Some c -> c <> [] -> Forall (fun p => is1d (snd p)) c ->
  d_toArray h d = Some (flat (packed c)).
Proof.
  intros Hc Hn Hf. unfold d_toArray. destruct (contents_ld _ _ _ Hc) as [E1 _]. rewrite E1. cbn [bind].
  rewrite hstack_1d.
  - rewrite map_map. reflexivity.
  - destruct c; [contradiction|discriminate].
  - apply Forall_map. exact Hf.
Qed.

(** Unpacking any array cut into pieces of the right lengths. *)
Lemma d_toDict_pieces np (h : heap) (d : tdict) c a ds :
  fresh d_refresh h d -> contents h d = Some c -> Forall (fun p => is1d (snd p)) c ->
  a_data a = concat ds -> map (@length T) ds = map (fun p => length (a_data (snd p))) c ->
  exists h' d', d_toDict keq np h d a = (h', Some d') /\ fresh d_refresh h' d' /\
    contents h' d' = Some (combine (map fst c) (map flat ds)) /\
    (forall v b, ld h v = Some b -> ld h' v = Some b).
Proof.
  intros [Hnd Hr] Hc Hf Ha Hl. unfold contents in Hc.
  assert (Hks : td_keys d = map fst c /\ td_slices d = slices_from 0 (map (@length T) ds)).
  { rewrite (d_refresh_1d _ _ _ Hc Hf) in Hr. apply some_inj in Hr. rewrite <- Hr. cbn. split; [reflexivity|].
    rewrite Hl, map_map. reflexivity. }
  destruct Hks as [Hks Hss]. unfold d_toDict. cbn [flatten flat a_data]. rewrite Ha, Hss, pick_slices0.
  destruct (alloc np h (map flat ds)) as [h' vs] eqn:Eal.
  destruct (alloc_ld _ _ _ _ _ Eal) as [El Elen]. rewrite map_length in Elen.
  assert (Elen2 : length (map fst c) = length vs).
  { rewrite Elen, map_length. rewrite <- (map_length (fun p => length (a_data (snd p))) c), <- Hl, map_length. reflexivity. }
  assert (Hnd' : NoDup (map fst (combine (map fst c) vs))).
  { rewrite map_fst_combine by assumption. destruct (contents_ld _ _ _ Hc) as [_ <-]. assumption. }
  assert (Hc' : contents_of h' (combine (map fst c) vs) = Some (combine (map fst c) (map flat ds))).
  { apply ld_contents; assumption. }
  assert (Hf' : Forall (fun p => is1d (snd p)) (combine (map fst c) (map (@flat T) ds))).
  { apply Forall_forall. intros [k x] Hx. apply in_combine_r in Hx. apply in_map_iff in Hx.
    destruct Hx as [y [<- _]]. reflexivity. }
  pose proof (d_refresh_1d _ _ _ Hc' Hf') as Hr'.
  exists h', (TD (combine (map fst c) vs) (map fst (combine (map fst c) (map flat ds)))
               (slices_from 0 (map (@length T) (map (fun p => a_data (snd p)) (combine (map fst c) (map flat ds)))))).
  rewrite Hks. unfold d_new. rewrite od_init by assumption. rewrite Hr'.
  split; [reflexivity|]. split; [split; assumption|]. split; [exact Hc'|].
  intros v b. exact (alloc_old _ _ _ _ _ v b Eal).
Qed.

Lemma combine_flat_1d (c : list (K * arr)) : Forall (fun p => is1d (snd p)) c ->
  combine (map fst c) (map flat (map (fun p => a_data (snd p)) c)) = c.
Proof.
  intros H. induction H as [|[k [s l]] c Hp Hf IH]; cbn; [reflexivity|]. rewrite IH. f_equal.
  cbn in Hp. unfold flat. red in Hp. cbn in Hp. rewrite Hp. reflexivity.
Qed.
Lemma fst_combine_flat (c : list (K * arr)) (ds : list (list T)) :
  map (@length T) ds = map (fun p => length (a_data (snd p))) c ->
  map fst (combine (map fst c) (map flat ds)) = map fst c /\
  packed (combine (map fst c) (map flat ds)) = concat ds.
Proof.
  intros H. assert (E : length (map fst c) = length (map (@flat T) ds)).
  { rewrite !map_length. rewrite <- (map_length (@length T) ds), H, map_length. reflexivity. }
  split; [apply map_fst_combine; assumption|].
  unfold packed. rewrite <- (map_map snd a_data), (map_snd_combine _ _ E), map_map.
  cbn. rewrite map_id. reflexivity.
Qed.

(** C30 *)
Lemma c30_roundtrip np (h : heap) (d : tdict) c a :
  fresh d_refresh h d -> contents h d = Some c -> Forall (fun p => is1d (snd p)) c -> a_data a = packed c ->
  exists h' d', d_toDict keq np h d a = (h', Some d') /\ contents h' d' = Some c /\ contents h' d = Some c.
Proof.
  intros H Hc Hf Ha.
  destruct (d_toDict_pieces np h d c a (map (fun p => a_data (snd p)) c) H Hc Hf Ha) as (h' & d' & E1 & E2 & E3 & E4).
  { rewrite map_map. reflexivity. }
  exists h', d'. split; [assumption|]. rewrite combine_flat_1d in E3 by assumption. split; [assumption|].
  eapply contents_mono; eassumption.
Qed.
Lemma packed_length (c : list (K * arr)) : length (packed c) = list_sum (map (fun p => length (a_data (snd p))) c).
Proof.
  unfold packed. induction c as [|p c IH]; cbn; [reflexivity|]. rewrite app_length, IH. reflexivity.
Qed.
Lemma c30_unpack_pack np (h : heap) (d : tdict) c a :
  fresh d_refresh h d -> contents h d = Some c -> c <> [] -> Forall (fun p => is1d (snd p)) c ->
  length (a_data a) = length (packed c) ->
  exists h' d', d_toDict keq np h d a = (h', Some d') /\ td_keys d' = td_keys d /\
    map fst (td_items d') = map fst (td_items d) /\
    d_toArray h' d' = Some (flat (a_data a)).
Proof.
  intros H Hc Hn Hf Hl. rewrite packed_length in Hl. destruct (split_lens _ _ Hl) as [ds [E Eds]].
  destruct (d_toDict_pieces np h d c a ds H Hc Hf E Eds) as (h' & d' & E1 & E2 & E3 & E4).
  exists h', d'. split; [assumption|].
  destruct (fst_combine_flat c ds Eds) as [F1 F2].
  destruct H as [_ H]. destruct (d_refresh_items _ _ _ H) as [_ Kd].
  destruct E2 as [_ E2]. destruct (d_refresh_items _ _ _ E2) as [_ Kd'].
  destruct (contents_ld _ _ _ Hc) as [_ K1]. destruct (contents_ld _ _ _ E3) as [_ K2].
  split; [congruence|]. split; [congruence|].
  rewrite (d_toArray_1d _ _ _ E3).
  - rewrite F2, E. reflexivity.
  - intros E0. apply (f_equal (map fst)) in E0. rewrite F1 in E0. destruct c; [contradiction|discriminate].
  - apply Forall_forall. intros [k x] Hx. apply in_combine_r in Hx. apply in_map_iff in Hx.
    destruct Hx as [y [<- _]]. reflexivity.
Qed.
Lemma d_toArray_empty (h : heap) (d : tdict) : td_items d = [] -> d_toArray h d = None.
Proof. unfold d_toArray. intros ->. reflexivity. Qed.
End D.
