From Coq Require Import List Arith Bool Lia.
From Verif Require Import Base ModelDict SpecDict ProofDict ProofDict2 SpecDictB ModelDictUp.
Import ListNotations.

Section B.
Context {T K : Type} (keq : K -> K -> bool) (Hk : keq_ok keq).
Notation arr := (@arr T). Notation val := (@val T). Notation heap := (@heap T).
Notation tdict := (@tdict T K). Notation items := (list (K * val)).

(** ** Shapes *)
Definition dimrel (a b c : nat) : Prop := a = b /\ c = a \/ a = 1 /\ c = b \/ b = 1 /\ c = a.
Lemma bc_dim_spec a b c : bc_dim a b = Some c -> dimrel a b c.
Proof.
  unfold bc_dim, dimrel. destruct (Nat.eqb_spec a b), (Nat.eqb_spec a 1), (Nat.eqb_spec b 1); intros [= <-]; auto.
Qed.
Lemma dimrel_bc a b c : dimrel a b c -> bc_dim a b = Some c.
Proof.
  unfold bc_dim, dimrel. destruct (Nat.eqb_spec a b), (Nat.eqb_spec a 1), (Nat.eqb_spec b 1); intros [[? ?]|[[? ?]|[? ?]]]; subst; congruence.
Qed.
Inductive F3 : list nat -> list nat -> list nat -> Prop :=
| F3_nil : F3 [] [] []
| F3_cons a b c s t r : dimrel a b c -> F3 s t r -> F3 (a :: s) (b :: t) (c :: r).
Lemma F3_app s t r s' t' r' : F3 s t r -> F3 s' t' r' -> F3 (s ++ s') (t ++ t') (r ++ r').
Proof. induction 1; cbn; [auto|constructor; auto]. Qed.
Lemma F3_rev s t r : F3 s t r -> F3 (rev s) (rev t) (rev r).
Proof. induction 1; cbn; [constructor|]. apply F3_app; [assumption|constructor; [assumption|constructor]]. Qed.
Lemma F3_rev' s t r : F3 (rev s) (rev t) (rev r) -> F3 s t r.
Proof. intros H. apply F3_rev in H. rewrite !rev_involutive in H. exact H. Qed.
Lemma F3_len s t r : F3 s t r -> length s = length t /\ length r = length t.
Proof. induction 1; cbn; lia. Qed.
Lemma mapM_F3 s : forall t r, length s = length t -> (mapM (fun p => bc_dim (fst p) (snd p)) (combine s t) = Some r <-> F3 s t r).
Proof.
  induction s as [|a s IH]; intros [|b t] r E; try discriminate; cbn.
  - split; [intros [= <-]; constructor|]. inversion 1; reflexivity.
  - cbn in E. split.
    + destruct (bc_dim a b) eqn:Ed; [|discriminate]. cbn. destruct (mapM _ _) eqn:Em; [|discriminate]. cbn. intros [= <-].
      constructor; [apply bc_dim_spec; assumption|]. apply IH; [lia|assumption].
    + inversion 1 as [|? ? c ? ? r' Hd HF]; subst. rewrite (dimrel_bc _ _ _ Hd). cbn. rewrite (proj2 (IH t r' ltac:(lia)) HF). reflexivity.
Qed.
Lemma ones_r s : F3 s (repeat 1 (length s)) s.
Proof. induction s; cbn; constructor; auto. right; right; auto. Qed.
Lemma ones_l s : F3 (repeat 1 (length s)) s s.
Proof. induction s; cbn; constructor; auto. right; left; auto. Qed.
Lemma ones_r_inv s r : F3 s (repeat 1 (length s)) r -> r = s.
Proof.
  revert r. induction s as [|a s IH]; cbn; intros r H; inversion H; subst; [reflexivity|]. f_equal; [|auto].
  match goal with H : dimrel _ _ _ |- _ => destruct H as [[? ?]|[[? ?]|[? ?]]]; congruence end.
Qed.
Lemma ones_l_inv s r : F3 (repeat 1 (length s)) s r -> r = s.
Proof.
  revert r. induction s as [|a s IH]; cbn; intros r H; inversion H; subst; [reflexivity|]. f_equal; [|auto].
  match goal with H : dimrel _ _ _ |- _ => destruct H as [[? ?]|[[? ?]|[? ?]]]; congruence end.
Qed.
Lemma bc_rev_F3 s : forall t r, bc_rev s t r <-> F3 (s ++ repeat 1 (length t - length s)) (t ++ repeat 1 (length s - length t)) r.
Proof.
  induction s as [|a s IH]; intros t r.
  - cbn [bc_rev app length]. rewrite Nat.sub_0_r. cbn. rewrite app_nil_r. split; [intros ->; apply ones_l|apply ones_l_inv].
  - destruct t as [|b t].
    + cbn [bc_rev app length Nat.sub repeat]. rewrite app_nil_r. change (S (length s)) with (length (a :: s)).
      split; [intros ->; apply ones_r|apply ones_r_inv].
    + cbn [length Nat.sub app]. destruct r as [|c r]; cbn [bc_rev].
      * split; [tauto|inversion 1].
      * split; [intros [H1 H2]; constructor; [exact H1|apply IH; exact H2]|].
        inversion 1; subst. split; [assumption|apply IH; assumption].
Qed.
Lemma rev_repeat {X} (x : X) n : rev (repeat x n) = repeat x n.
Proof. induction n; cbn; [reflexivity|]. rewrite IHn. clear. induction n; cbn; congruence. Qed.
Lemma pad_length n s t : length (pad (length t) s) = length (pad (length s) t) /\ (n = length t -> length (pad n s) = Nat.max (length s) n).
Proof. unfold pad. rewrite !app_length, !repeat_length. lia. Qed.
Lemma bc_shape_spec s t r : bc_shape s t = Some r <-> broadcasts s t r.
Proof.
  unfold bc_shape, broadcasts. rewrite mapM_F3 by (apply (pad_length 0)). rewrite bc_rev_F3, !rev_length. unfold pad. split.
  - intros H. apply F3_rev in H. rewrite !rev_app_distr, !rev_repeat in H. exact H.
  - intros H. apply F3_rev'. rewrite !rev_app_distr, !rev_repeat. exact H.
Qed.

(** ** Entries *)
Lemma offset_lt s : forall idx, inside s idx -> offset s idx < nprod s.
Proof.
  induction s as [|d s IH]; intros idx H; inversion H as [|i ? idx' ? Hi HF]; subst; cbn; [lia|].
  specialize (IH idx' HF). fold (nprod s) in *. nia.
Qed.
Lemma chunks_nth sz n : forall (l : list T) i, i < n -> nth_error (chunks sz n l) i = Some (firstn sz (skipn (i * sz) l)).
Proof.
  induction n as [|n IH]; intros l i Hi; [lia|]. destruct i as [|i]; cbn [chunks nth_error Nat.mul]; [reflexivity|].
  rewrite IH by lia. do 2 f_equal. clear. revert l. rewrite (Nat.add_comm sz). generalize (i * sz) as m.
  intros m l. revert m. induction sz as [|sz IH] in l |- *; intros m; [rewrite Nat.add_0_r; reflexivity|].
  destruct l; [rewrite !skipn_nil; reflexivity|]. rewrite Nat.add_succ_r. cbn [skipn]. apply IH.
Qed.
Lemma chunks_length sz n (l : list T) : length (chunks sz n l) = n.
Proof. revert l. induction n; intros; cbn; congruence. Qed.
Lemma nth_error_firstn {X} n : forall (l : list X) j, j < n -> nth_error (firstn n l) j = nth_error l j.
Proof. induction n; intros [|x l] [|j] H; cbn; try lia; try reflexivity. apply IHn. lia. Qed.
Lemma nth_error_skipn {X} m : forall (l : list X) j, nth_error (skipn m l) j = nth_error l (m + j).
Proof. induction m; intros [|x l] j; cbn; try reflexivity; [destruct j; reflexivity|]. apply IHm. Qed.
Lemma concat_nth (rows : list (list T)) sz : Forall (fun r => length r = sz) rows -> forall i j r,
  nth_error rows i = Some r -> j < sz -> nth_error (concat rows) (i * sz + j) = nth_error r j.
Proof.
  induction 1 as [|r rows Hr _ IH]; intros [|i] j r' E Hj; cbn in E; try discriminate.
  - injection E as <-. cbn. apply nth_error_app1. lia.
  - cbn [concat]. rewrite nth_error_app2 by (cbn; lia). cbn. rewrite Hr. replace (sz + i * sz + j - sz) with (i * sz + j) by lia.
    apply (IH _ _ _ E Hj).
Qed.
Lemma concat_len (rows : list (list T)) sz : Forall (fun r => length r = sz) rows -> length (concat rows) = length rows * sz.
Proof. induction 1; cbn; [reflexivity|]. rewrite app_length. lia. Qed.
(** shapes of equal length, each dimension equal or stretched from 1 *)
Definition stretched (si so : list nat) : Prop := Forall2 (fun d e => d = e \/ d = 1) si so.
Definition clip (si idx : list nat) : list nat := map (fun p => if fst p =? 1 then 0 else snd p) (combine si idx).
Lemma expand_len si : forall so (l : list T), stretched si so -> length l = nprod si -> length (expand si so l) = nprod so.
Proof.
  induction si as [|d si IH]; intros so l H El; inversion H as [|? e ? so' Hd HF]; subst; cbn; [exact El|].
  cbn in El. fold (nprod si) in *. fold (nprod so').
  assert (Forall (fun r => length r = nprod so') (map (expand si so') (chunks (nprod si) d l))) as Hrows.
  { apply Forall_map. eapply Forall_impl; [|apply chunks_len; exact El]. intros r Er. apply IH; assumption. }
  destruct (Nat.eqb_spec d e) as [->|Hne].
  - rewrite (concat_len _ _ Hrows), map_length, chunks_length. reflexivity.
  - destruct Hd as [->| ->]; [congruence|]. cbn [chunks map hd].
    rewrite (concat_len _ (nprod so')), repeat_length; [reflexivity|]. apply Forall_forall. intros r Hr. apply repeat_spec in Hr. subst r.
    cbn in Hrows. inversion Hrows; assumption.
Qed.
Lemma expand_nth si : forall so (l : list T) idx, stretched si so -> length l = nprod si -> inside so idx ->
  nth_error (expand si so l) (offset so idx) = nth_error l (offset si (clip si idx)).
Proof.
  induction si as [|d si IH]; intros so l idx H El Hin; inversion H as [|? e ? so' Hd HF]; subst; inversion Hin as [|i ? idx' ? Hi Hin']; subst.
  - reflexivity.
  - cbn [expand offset clip combine map fst snd]. fold (clip si idx'). cbn in El. fold (nprod si) in El.
    assert (Forall (fun r => length r = nprod so') (map (expand si so') (chunks (nprod si) d l))) as Hrows.
    { apply Forall_map. eapply Forall_impl; [|apply chunks_len; exact El]. intros r Er. apply expand_len; assumption. }
    pose proof (offset_lt so' idx' Hin') as Ho.
    assert (Hsrc : offset si (clip si idx') < nprod si \/ nth_error l (offset si (clip si idx')) = nth_error l (offset si (clip si idx'))) by auto.
    assert (Hlt : inside si (clip si idx')).
    { clear - HF Hin'. revert idx' Hin'. induction HF as [|d e si so' Hd HF IH]; intros idx Hin; inversion Hin as [|i ? idx' ? Hi Hin']; subst; constructor.
      - cbn. destruct (Nat.eqb_spec d 1); [lia|]. destruct Hd; lia.
      - apply IH. assumption. }
    pose proof (offset_lt _ _ Hlt) as Hs. clear Hsrc.
    destruct (Nat.eqb_spec d e) as [->|Hne].
    + assert (En : nth_error (map (expand si so') (chunks (nprod si) e l)) i = Some (expand si so' (firstn (nprod si) (skipn (i * nprod si) l)))).
      { rewrite nth_error_map, chunks_nth by assumption. reflexivity. }
      rewrite (concat_nth _ _ Hrows _ _ _ En Ho). rewrite IH; [|assumption| |assumption].
      * rewrite nth_error_firstn by assumption. rewrite nth_error_skipn. f_equal.
        destruct (Nat.eqb_spec e 1) as [->|]; [|reflexivity]. replace i with 0 by lia. reflexivity.
      * rewrite firstn_length, skipn_length. nia.
    + destruct Hd as [->| ->]; [congruence|]. cbn [chunks map hd Nat.eqb].
      assert (HR : Forall (fun r => length r = nprod so') (repeat (expand si so' (firstn (nprod si) l)) e)).
      { apply Forall_forall. intros r Hr. apply repeat_spec in Hr. subst r. cbn in Hrows. inversion Hrows; assumption. }
      rewrite (concat_nth _ _ HR i _ _ (nth_error_repeat _ Hi) Ho). rewrite IH; [|assumption| |assumption].
      * rewrite nth_error_firstn by assumption. reflexivity.
      * rewrite firstn_length. lia.
Qed.
Lemma offset_pad k s : forall idx, length idx = k + length s ->
  offset (repeat 1 k ++ s) (clip (repeat 1 k ++ s) idx) = offset s (clip s (skipn k idx)).
Proof.
  induction k as [|k IH]; intros idx E; [reflexivity|]. destruct idx as [|i idx]; [discriminate|].
  cbn in E. cbn [repeat app clip combine map fst snd Nat.eqb offset Nat.mul skipn Nat.add]. apply IH. lia.
Qed.
Lemma nprod_pad k s : nprod (repeat 1 k ++ s) = nprod s.
Proof. induction k; cbn; [reflexivity|]. fold (nprod (repeat 1 k ++ s)). rewrite IHk. lia. Qed.
Lemma F3_stretched s t r : F3 s t r -> stretched s r /\ stretched t r.
Proof. induction 1 as [|a b c s t r Hd _ [IH1 IH2]]; split; constructor; auto; destruct Hd as [[? ?]|[[? ?]|[? ?]]]; subst; auto. Qed.
Lemma nth_error_combine {X Y} (l : list X) : forall (m : list Y) n x y, nth_error l n = Some x -> nth_error m n = Some y ->
  nth_error (combine l m) n = Some (x, y).
Proof. induction l as [|a l IHl]; intros [|b m] [|n] x y; cbn; try discriminate; [intros [= ->] [= ->]; reflexivity|]. apply IHl. Qed.
Lemma bc_op_spec f (a b : arr) : wf a -> wf b ->
  (forall c, bc_op f a b = Some c -> is_bc f a b c) /\
  (bc_op f a b = None -> forall c, ~ is_bc f a b c).
Proof.
  intros Wa Wb. unfold bc_op. destruct (bc_shape (a_shape a) (a_shape b)) as [s|] eqn:Es; cbn [bind].
  2: { split; [discriminate|]. intros _ c [Hc _]. apply bc_shape_spec in Hc. congruence. }
  split; [|discriminate]. intros c [= <-]. pose proof (proj1 (bc_shape_spec _ _ _) Es) as Hs.
  assert (H3 : F3 (pad (length (a_shape b)) (a_shape a)) (pad (length (a_shape a)) (a_shape b)) s).
  { apply mapM_F3; [apply (pad_length 0)|exact Es]. }
  destruct (F3_len _ _ _ H3) as [_ Elen]. unfold pad in Elen at 1. rewrite app_length, repeat_length in Elen.
  assert (Ea : pad (length s) (a_shape a) = pad (length (a_shape b)) (a_shape a)).
  { unfold pad. f_equal. f_equal. lia. }
  assert (Eb : pad (length s) (a_shape b) = pad (length (a_shape a)) (a_shape b)).
  { unfold pad. f_equal. f_equal. lia. }
  destruct (F3_stretched _ _ _ H3) as [Sa Sb]. rewrite <- Ea in Sa. rewrite <- Eb in Sb.
  assert (La : length (a_data a) = nprod (pad (length s) (a_shape a))) by (unfold pad; rewrite nprod_pad; exact Wa).
  assert (Lb : length (a_data b) = nprod (pad (length s) (a_shape b))) by (unfold pad; rewrite nprod_pad; exact Wb).
  split; [exact Hs|]. split.
  { unfold wf. cbn [a_data a_shape]. rewrite map_length, combine_length, !expand_len by assumption. lia. }
  cbn [a_shape]. intros idx Hin. pose proof (F2_len _ _ _ Hin) as Eidx. pose proof (offset_lt _ _ Hin) as Ho.
  assert (Ha : nth_error (expand (pad (length s) (a_shape a)) s (a_data a)) (offset s idx) = entry a (source (a_shape a) idx)).
  { rewrite expand_nth by assumption. unfold pad, entry, source. rewrite offset_pad by lia. unfold clip. rewrite Eidx. reflexivity. }
  assert (Hb : nth_error (expand (pad (length s) (a_shape b)) s (a_data b)) (offset s idx) = entry b (source (a_shape b) idx)).
  { rewrite expand_nth by assumption. unfold pad, entry, source. rewrite offset_pad by lia. unfold clip. rewrite Eidx. reflexivity. }
  pose proof (expand_len _ _ _ Sa La) as L1. pose proof (expand_len _ _ _ Sb Lb) as L2.
  destruct (nth_error (expand (pad (length s) (a_shape a)) s (a_data a)) (offset s idx)) as [x|] eqn:Ex.
  2: { apply nth_error_None in Ex. lia. }
  destruct (nth_error (expand (pad (length s) (a_shape b)) s (a_data b)) (offset s idx)) as [y|] eqn:Ey.
  2: { apply nth_error_None in Ey. lia. }
  exists x, y. split; [symmetry; exact Ha|]. split; [symmetry; exact Hb|].
  unfold entry. cbn [a_shape a_data]. rewrite nth_error_map, (nth_error_combine _ _ _ _ _ Ex Ey). reflexivity.
Qed.
Lemma nth_error_ext {X} (l : list X) : forall m, (forall n, nth_error l n = nth_error m n) -> l = m.
Proof.
  induction l as [|a l IH]; intros [|b m] H; [reflexivity|specialize (H 0); discriminate|specialize (H 0); discriminate|].
  pose proof (H 0) as H0. cbn in H0. injection H0 as ->. f_equal. apply IH. intros n. exact (H (S n)).
Qed.
Lemma offset_surj s : forall n, n < nprod s -> exists idx, inside s idx /\ offset s idx = n.
Proof.
  induction s as [|d s IH]; intros n Hn.
  - exists []. split; [constructor|]. cbn in *. lia.
  - change (n < d * nprod s) in Hn. assert (nprod s <> 0) as H0 by nia.
    destruct (IH (n mod nprod s)) as (idx & H1 & H2); [apply Nat.mod_upper_bound; exact H0|].
    exists (n / nprod s :: idx). split.
    + constructor; [|exact H1]. apply Nat.div_lt_upper_bound; [exact H0|]. rewrite Nat.mul_comm. exact Hn.
    + change (n / nprod s * nprod s + offset s idx = n). rewrite H2, Nat.mul_comm. symmetry. apply Nat.div_mod. exact H0.
Qed.
Lemma is_bc_unique f (a b c c' : arr) : is_bc f a b c -> is_bc f a b c' -> c = c'.
Proof.
  intros (S1 & W1 & E1) (S2 & W2 & E2). apply bc_shape_spec in S1. apply bc_shape_spec in S2.
  assert (a_shape c' = a_shape c) as Es by congruence. destruct c as [s l], c' as [s' l']. unfold wf in W1, W2. cbn [a_shape a_data] in *. subst s'. f_equal.
  apply nth_error_ext. intros n. destruct (Nat.lt_ge_cases n (nprod s)) as [Hn|Hn].
  - destruct (offset_surj s n Hn) as (idx & Hi & <-). destruct (E1 idx Hi) as (x & y & X & Y & Z). destruct (E2 idx Hi) as (x' & y' & X' & Y' & Z').
    unfold entry in Z, Z'. cbn in Z, Z'. congruence.
  - rewrite (proj2 (nth_error_None l n)), (proj2 (nth_error_None l' n)) by lia. reflexivity.
Qed.

(** ** The loop over the keys *)
Lemma od_set_mid (pre rest : items) k v z : ~ In k (map fst pre) -> od_set keq (pre ++ (k, v) :: rest) k z = pre ++ (k, z) :: rest.
Proof.
  induction pre as [|[k' v'] pre IH]; cbn; intros H; [rewrite (keq_refl _ Hk); reflexivity|].
  rewrite (keq_neq _ Hk) by (intros ->; apply H; left; reflexivity). f_equal. apply IH. tauto.
Qed.
Lemma iop_jax f (h : heap) x y : ~ (exists l l', x = Np l /\ y = Np l') ->
  iop f h x y = match ld h x, ld h y with Some a, Some b => (h, option_map Jax (bc_op f a b)) | _, _ => (h, None) end.
Proof. intros H. destruct x as [xa|l|n]; destruct y as [ya|l'|n']; try reflexivity. exfalso. apply H. eauto. Qed.
Definition step_ok f h (o : items) (p p' : K * val) : Prop := fst p' = fst p /\ exists c, snd p' = Jax c /\ combines f h o p c.
Lemma loop_char f (h : heap) (o : items) : NoDup (map fst o) -> filled h o -> forall todo pre h' tgt' r,
  NoDup (map fst (pre ++ todo)) -> filled h todo -> no_clash todo o ->
  aug_dict keq f h (pre ++ todo) (map fst todo) o = (h', tgt', r) ->
  h' = h /\ exists done rest done', todo = done ++ rest /\ tgt' = pre ++ done' ++ rest /\ Forall2 (step_ok f h o) done done' /\
    (r = Done <-> rest = []) /\ (forall p rest', rest = p :: rest' -> forall c, ~ combines f h o p c).
Proof.
  intros Ho Fo. induction todo as [|[k v] todo IH]; intros pre h' tgt' r Hn Ft Hc E.
  - cbn in E. injection E as <- <- <-. split; [reflexivity|]. exists [], [], []. repeat split; [constructor|discriminate].
  - cbn [map fst aug_dict] in E. unfold aug in E.
    assert (Hkpre : ~ In k (map fst pre)).
    { rewrite map_app in Hn. cbn in Hn. apply NoDup_remove_2 in Hn. intros Hx. apply Hn. apply in_or_app. left. exact Hx. }
    assert (Eg : od_get keq (pre ++ (k, v) :: todo) k = Some v).
    { apply (In_od_get _ Hk); [exact Hn|]. apply in_or_app. right. left. reflexivity. }
    rewrite Eg in E.
    assert (Hstop : forall h1 tgt1, (forall c, ~ combines f h o (k, v) c) -> (h1, tgt1, Raised) = (h', tgt', r) -> h1 = h -> tgt1 = pre ++ (k, v) :: todo ->
      h' = h /\ exists done rest done', (k, v) :: todo = done ++ rest /\ tgt' = pre ++ done' ++ rest /\ Forall2 (step_ok f h o) done done' /\
        (r = Done <-> rest = []) /\ (forall p rest', rest = p :: rest' -> forall c, ~ combines f h o p c)).
    { intros h1 tgt1 Hno [= <- <- <-] -> ->. split; [reflexivity|]. exists [], ((k, v) :: todo), []. split; [reflexivity|]. split; [reflexivity|].
      split; [constructor|]. split; [split; discriminate|]. intros p rest' [= <- <-]. exact Hno. }
    destruct (od_get keq o k) as [y|] eqn:Ey.
    2: { apply (Hstop h (pre ++ (k, v) :: todo)); [|exact E|reflexivity|reflexivity].
         intros c (y & a & b & Hy & _). cbn in Hy. apply (od_get_None _ Hk) in Ey. apply Ey. apply (in_map fst) in Hy. exact Hy. }
    pose proof (od_get_In _ Hk _ _ _ Ey) as Hy.
    assert (Huniq : forall y', In (k, y') o -> y' = y).
    { intros y' Hy'. apply (In_od_get _ Hk) in Hy'; [congruence|exact Ho]. }
    rewrite iop_jax in E by (intros (l & l' & -> & ->); apply (Hc k l l'); [left; reflexivity|exact Hy]).
    destruct (ld h v) as [a|] eqn:La.
    2: { apply (Hstop h (pre ++ (k, v) :: todo)); [|exact E|reflexivity|reflexivity].
         intros c (y' & a & b & _ & La' & _). cbn in La'. congruence. }
    destruct (ld h y) as [b|] eqn:Lb.
    2: { apply (Hstop h (pre ++ (k, v) :: todo)); [|exact E|reflexivity|reflexivity].
         intros c (y' & a' & b & Hy' & _ & Lb' & _). cbn in Hy'. rewrite (Huniq _ Hy') in Lb'. congruence. }
    assert (Wa : wf a) by (apply (Ft k v a); [left; reflexivity|exact La]).
    assert (Wb : wf b) by (apply (Fo k y b); [exact Hy|exact Lb]).
    destruct (bc_op_spec f a b Wa Wb) as [Hs Hn'].
    destruct (bc_op f a b) as [c|] eqn:Eb; cbn [option_map] in E.
    2: { apply (Hstop h (pre ++ (k, v) :: todo)); [|exact E|reflexivity|reflexivity].
         intros c (y' & a' & b' & Hy' & La' & Lb' & Hbc). cbn in Hy', La'. rewrite (Huniq _ Hy') in Lb'. apply (Hn' eq_refl c). congruence. }
    rewrite od_set_mid in E by exact Hkpre. change (pre ++ (k, Jax c) :: todo) with (pre ++ [(k, Jax c)] ++ todo) in E. rewrite app_assoc in E.
    destruct (IH (pre ++ [(k, Jax c)]) h' tgt' r) as [-> (done & rest & done' & -> & -> & HF & Hr & Hstuck)]; [| | |exact E|].
    { rewrite <- app_assoc. rewrite map_app in Hn |- *. exact Hn. }
    { intros k1 v1 a1 H1 H2. apply (Ft k1 v1 a1); [right; exact H1|exact H2]. }
    { intros k1 l l' H1 H2. apply (Hc k1 l l'); [right; exact H1|exact H2]. }
    split; [reflexivity|]. exists ((k, v) :: done), rest, ((k, Jax c) :: done'). split; [reflexivity|]. split.
    { rewrite <- app_assoc. reflexivity. }
    split; [|split; [exact Hr|exact Hstuck]]. constructor; [|exact HF]. split; [reflexivity|]. exists c. split; [reflexivity|].
    exists y, a, b. cbn. auto.
Qed.

(** ** update *)
Lemma od_update_get (l : items) : forall (d : items) k,
  (forall v, last_for l k v -> od_get keq (od_update keq d l) k = Some v) /\
  (~ In k (map fst l) -> od_get keq (od_update keq d l) k = od_get keq d k).
Proof.
  induction l as [|[k1 v1] l IH]; intros d k; cbn [od_update fold_left fst snd map].
  - split; [|reflexivity]. intros v (l1 & l2 & E & _). destruct l1; discriminate.
  - fold (od_update keq (od_set keq d k1 v1) l). destruct (IH (od_set keq d k1 v1) k) as [IH1 IH2]. split.
    + intros v (l1 & l2 & E & Hn). destruct l1 as [|p l1]; cbn in E.
      * injection E as -> -> <-. rewrite IH2 by exact Hn. rewrite (od_get_set _ Hk), (keq_refl _ Hk). reflexivity.
      * injection E as _ ->. apply IH1. exists l1, l2. auto.
    + intros Hn. rewrite IH2 by (intros Hx; apply Hn; right; exact Hx). rewrite (od_get_set _ Hk), (keq_neq _ Hk); [reflexivity|]. intros ->. apply Hn. left. reflexivity.
Qed.
Lemma newcomers_same (old old' : list K) ks r : (forall k, In k old <-> In k old') -> newcomers old ks r -> newcomers old' ks r.
Proof.
  intros H Hn. revert old' H. induction Hn as [old|old k ks r Hin _ IH|old k ks r Hin _ IH]; intros old' H; [constructor| |].
  - constructor; [apply H; exact Hin|apply IH; exact H].
  - constructor; [intros Hx; apply Hin; apply H; exact Hx|]. apply IH. intros x. cbn. rewrite H. tauto.
Qed.
Lemma od_update_keys (l : items) : forall (d : items), exists r, newcomers (map fst d) (map fst l) r /\ map fst (od_update keq d l) = map fst d ++ r.
Proof.
  induction l as [|[k v] l IH]; intros d; cbn [od_update fold_left fst snd map].
  - exists []. split; [constructor|symmetry; apply app_nil_r].
  - fold (od_update keq (od_set keq d k v) l). destruct (IH (od_set keq d k v)) as (r & Hr & E).
    destruct (in_dec (keq_dec _ Hk) k (map fst d)) as [Hin|Hin].
    + rewrite (od_set_keys_in _ Hk) in Hr, E by exact Hin. exists r. split; [constructor; assumption|exact E].
    + rewrite (od_set_keys_new _ Hk) in Hr, E by exact Hin. exists (k :: r). split.
      * constructor; [exact Hin|]. eapply newcomers_same; [|exact Hr]. intros x. rewrite in_app_iff. cbn. tauto.
      * rewrite E, <- app_assoc. reflexivity.
Qed.
Lemma fill_done (h : heap) vs : forall start, snd (fill h start vs) = Done ->
  exists lens, mapM (len0 h) vs = Some lens /\ fst (fill h start vs) = slices_from start lens.
Proof.
  induction vs as [|v vs IH]; intros start E; cbn in *; [exists []; auto|].
  destruct (len0 h v) as [n|]; [|discriminate]. destruct (fill h (start + n) vs) as [s r] eqn:Ef. cbn in E. subst r.
  destruct (IH (start + n)) as (lens & E1 & E2); [rewrite Ef; reflexivity|]. rewrite Ef in E2. cbn in *. rewrite E1. cbn.
  exists (n :: lens). split; [reflexivity|]. cbn. rewrite E2. reflexivity.
Qed.
Lemma fill_len (h : heap) vs : forall start, length (fst (fill h start vs)) = length vs.
Proof.
  induction vs as [|v vs IH]; intros start; cbn; [reflexivity|]. destruct (len0 h v) as [n|]; [|cbn; rewrite repeat_length; reflexivity].
  specialize (IH (start + n)). destruct (fill h (start + n) vs). cbn in *. lia.
Qed.
Lemma fill_raised (h : heap) vs : forall start, snd (fill h start vs) = Raised <-> exists v, In v vs /\ len0 h v = None.
Proof.
  induction vs as [|v vs IH]; intros start; cbn.
  - split; [discriminate|]. intros [v [[] _]].
  - destruct (len0 h v) as [n|] eqn:En.
    + specialize (IH (start + n)). destruct (fill h (start + n) vs). cbn in *. rewrite IH. split.
      * intros [w [Hw E]]. eauto.
      * intros [w [[<-|Hw] E]]; [congruence|eauto].
    + split; [eauto|reflexivity].
Qed.
(** from the failing key on, what an unpacked array gives is empty *)
Lemma fill_tail (h : heap) vs : forall start, snd (fill h start vs) = Raised ->
  exists n, n < length vs /\ skipn n (fst (fill h start vs)) = repeat (Some (0, 0)) (length vs - n) /\
    exists v, nth_error vs n = Some v /\ len0 h v = None.
Proof.
  induction vs as [|v vs IH]; intros start E; cbn [fill] in *; [discriminate|].
  destruct (len0 h v) as [m|] eqn:Em.
  - specialize (IH (start + m)). destruct (fill h (start + m) vs) as [s r]. cbn in *. destruct (IH E) as (n & H1 & H2 & H3).
    exists (S n). cbn. split; [lia|]. split; [exact H2|exact H3].
  - exists 0. cbn [length skipn fst Nat.sub nth_error]. split; [lia|]. split; [reflexivity|]. eauto.
Qed.
Lemma update_run_done (h : heap) (d d' : tdict) l : update_run keq h d l = (d', Done) <-> d_update keq h d l = Some d'.
Proof.
  unfold update_run, d_update, d_refresh, getSlices_run, d_getSlices. set (it := od_update keq (td_items d) l).
  destruct (forallb is_arr (map snd it)).
  - pose proof (fill_done h (map snd it) 0) as Hf. pose proof (fill_raised h (map snd it) 0) as Hr.
    destruct (fill h 0 (map snd it)) as [s [|]]; cbn in *.
    + destruct (Hf eq_refl) as (lens & -> & ->). cbn. split; intros [= <-]; reflexivity.
    + destruct (proj1 Hr eq_refl) as (v & Hv & E). rewrite (mapM_None _ _ _ Hv E). cbn. split; discriminate.
  - cbn. split; intros [= <-]; reflexivity.
Qed.
End B.
