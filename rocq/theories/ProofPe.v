From Coq Require Import List Arith Bool Lia Sorted Permutation.
From Verif Require Import Base ModelPe SpecPe ProofDict.
Import ListNotations.

Lemma isin_In C i : isin C i = true <-> In i C.
Proof.
  unfold isin. rewrite existsb_exists. split.
  - intros (x & H & E). apply Nat.eqb_eq in E. subst. assumption.
  - intros H. exists i. split; [assumption|apply Nat.eqb_refl].
Qed.
Lemma isin_not C i : isin C i = false <-> ~ In i C.
Proof. rewrite <- isin_In. destruct (isin C i); intuition congruence. Qed.
Definition outs (C : list nat) (l : list nat) : list nat := filter (fun i => negb (isin C i)) l.

Lemma filter_length {A} (f : A -> bool) l : length (filter f l) + length (filter (fun x => negb (f x)) l) = length l.
Proof. induction l as [|x l IH]; cbn; [reflexivity|]. destruct (f x); cbn; lia. Qed.
Lemma outs_length C n : NoDup C -> Forall (fun k => k < n) C -> length (outs C (seq 0 n)) = n - length C.
Proof.
  intros Hn Hb. pose proof (filter_length (isin C) (seq 0 n)) as H. rewrite seq_length in H.
  assert (E : length (filter (isin C) (seq 0 n)) = length C).
  { apply Permutation_length. apply NoDup_Permutation.
    - apply NoDup_filter, seq_NoDup.
    - assumption.
    - intros x. rewrite filter_In, isin_In, in_seq. rewrite Forall_forall in Hb. split; [tauto|].
      intros Hx. specialize (Hb _ Hx). split; [lia|assumption]. }
  unfold outs. lia.
Qed.
Lemma outs_all C l : (forall i, In i l -> ~ In i C) -> outs C l = l.
Proof.
  unfold outs. induction l as [|x l IH]; intros H; cbn; [reflexivity|].
  replace (isin C x) with false by (symmetry; apply isin_not; apply H; left; reflexivity). cbn.
  rewrite IH; [reflexivity|]. intros; apply H; right; assumption.
Qed.
Lemma seq_split3 k n : k < n -> seq 0 n = seq 0 k ++ k :: seq (S k) (n - S k).
Proof.
  intros H. replace n with (k + S (n - S k)) at 1 by lia. rewrite seq_app. reflexivity.
Qed.
Lemma ascending_NoDup l : ascending l -> NoDup l.
Proof.
  induction 1 as [|k l Hs IH Hf]; constructor; [|assumption].
  intros Hi. rewrite Forall_forall in Hf. specialize (Hf _ Hi). lia.
Qed.

Lemma pop_at {Z} (A : list Z) x B k : length A = k -> pop k (A ++ x :: B) = Some (x, A ++ B).
Proof.
  intros <-. unfold pop. rewrite nth_error_app2, Nat.sub_diag by lia. cbn. f_equal. f_equal.
  rewrite firstn_app_exact. f_equal. replace (A ++ x :: B) with ((A ++ [x]) ++ B) by (rewrite <- app_assoc; reflexivity).
  change (match (A ++ [x]) ++ B with [] => [] | _ :: l => skipn (length A) l end) with (skipn (S (length A)) ((A ++ [x]) ++ B)).
  replace (S (length A)) with (length (A ++ [x])) by (rewrite app_length; cbn; lia). apply skipn_app_exact.
Qed.

Lemma outs_snoc P k l : outs (P ++ [k]) l = filter (fun i => negb (i =? k)) (outs P l).
Proof.
  unfold outs, isin. induction l as [|x l IH]; cbn; [reflexivity|]. rewrite existsb_app. cbn. rewrite orb_false_r.
  destruct (existsb (Nat.eqb x) P); cbn; [assumption|]. destruct (x =? k); cbn; [assumption|]. f_equal. assumption.
Qed.
Lemma filter_id {A} (f : A -> bool) l : (forall x, In x l -> f x = true) -> filter f l = l.
Proof. induction l as [|x l IH]; intros H; cbn; [reflexivity|]. rewrite (H x (or_introl eq_refl)), IH; auto. intros; apply H; right; assumption. Qed.

(** After ascending positions the order is: those moved, last first, then the rest. *)
Lemma pe_order_asc n : forall C P, ascending C -> Forall (fun k => k < n) C ->
  NoDup P -> Forall (fun p => Forall (fun k => p < k) C) P -> Forall (fun p => p < n) P ->
  pe_order C (rev P ++ outs P (seq 0 n)) = Some (rev (P ++ C) ++ outs (P ++ C) (seq 0 n)).
Proof.
  induction C as [|k C IH]; intros P Ha Hb HnP Hlt HbP; cbn [pe_order].
  - rewrite app_nil_r. reflexivity.
  - inversion Ha as [|? ? Hs Hf]; subst. inversion Hb as [|? ? Hk HbC]; subst.
    assert (HPk : forall p, In p P -> p < k).
    { intros p Hp. rewrite Forall_forall in Hlt. specialize (Hlt p Hp). inversion Hlt; assumption. }
    assert (E : outs P (seq 0 n) = outs P (seq 0 k) ++ k :: seq (S k) (n - S k)).
    { rewrite (seq_split3 k n Hk) at 1. unfold outs. rewrite filter_app. f_equal.
      apply (outs_all P (k :: seq (S k) (n - S k))). intros i Hi Hp. specialize (HPk i Hp). cbn in Hi.
      rewrite in_seq in Hi. lia. }
    assert (El : length (rev P ++ outs P (seq 0 k)) = k).
    { rewrite app_length, rev_length, outs_length; [|assumption|apply Forall_forall; assumption].
      assert (length P <= k); [|lia].
      pose proof (NoDup_incl_length (l := P) (l' := seq 0 k) HnP) as Hi. rewrite seq_length in Hi. apply Hi.
      intros p Hp. apply in_seq. specialize (HPk p Hp). lia. }
    rewrite E, app_assoc, (pop_at _ _ _ _ El). cbn [bind fst snd].
    assert (E2 : k :: (rev P ++ outs P (seq 0 k)) ++ seq (S k) (n - S k)
                 = rev (P ++ [k]) ++ outs (P ++ [k]) (seq 0 n)).
    { rewrite rev_app_distr. cbn. f_equal. rewrite <- app_assoc. f_equal.
      rewrite outs_snoc, E, filter_app. cbn. rewrite Nat.eqb_refl. cbn. f_equal; symmetry; apply filter_id.
      - intros x Hx. apply filter_In in Hx. rewrite in_seq in Hx. destruct (Nat.eqb_spec x k); [lia|reflexivity].
      - intros x Hx. rewrite in_seq in Hx. destruct (Nat.eqb_spec x k); [lia|reflexivity]. }
    rewrite E2, IH; auto.
    + rewrite <- app_assoc. reflexivity.
    + apply NoDup_snoc; [assumption|]. intros Hp. specialize (HPk k Hp). lia.
    + apply Forall_app. split; [|constructor; [assumption|constructor]].
      eapply Forall_impl; [|exact Hlt]. intros p Hp. inversion Hp; assumption.
    + apply Forall_app. split; [assumption|]. constructor; [assumption|constructor].
Qed.
Lemma pe_order_asc0 n C : ascending C -> below n C ->
  pe_order C (seq 0 n) = Some (rev C ++ outs C (seq 0 n)).
Proof.
  intros Ha Hb. pose proof (pe_order_asc n C [] Ha Hb) as H. cbn in H.
  rewrite (outs_all []) in H by (intros i _ []). apply H; constructor.
Qed.

(** ** Positions *)
Lemma index_of_app_l i l m : In i l -> index_of i (l ++ m) = index_of i l.
Proof.
  induction l as [|x l IH]; cbn; [tauto|]. destruct (Nat.eqb_spec x i); [reflexivity|]. intros [H|H]; [contradiction|].
  rewrite IH by assumption. reflexivity.
Qed.
Lemma index_of_app_r i l m : ~ In i l -> index_of i (l ++ m) = length l + index_of i m.
Proof.
  induction l as [|x l IH]; cbn; intros H; [reflexivity|]. destruct (Nat.eqb_spec x i); [tauto|].
  rewrite IH by tauto. reflexivity.
Qed.
Lemma index_of_nth i l : In i l -> nth_error l (index_of i l) = Some i.
Proof.
  induction l as [|x l IH]; cbn; [tauto|]. destruct (Nat.eqb_spec x i); [subst; reflexivity|]. intros [H|H]; [contradiction|].
  apply IH. assumption.
Qed.
Lemma index_of_lt i l : In i l -> index_of i l < length l.
Proof. intros H. apply nth_error_Some. rewrite index_of_nth by assumption. discriminate. Qed.
Lemma index_of_outs C i n : i < n -> ~ In i C -> index_of i (outs C (seq 0 n)) = length (outs C (seq 0 i)).
Proof.
  intros Hi Hc. rewrite (seq_split3 i n Hi). unfold outs. rewrite filter_app. cbn.
  replace (isin C i) with false by (symmetry; apply isin_not; assumption). cbn.
  rewrite index_of_app_r.
  - cbn. rewrite Nat.eqb_refl. lia.
  - rewrite filter_In, in_seq. lia.
Qed.

Lemma gather_spec {X} (L : list X) g n out : length out = n ->
  (forall i, i < n -> nth_error L (g i) = nth_error out i) -> gather L (map g (seq 0 n)) = Some out.
Proof.
  intros Hl H. unfold gather. rewrite mapM_map. apply mapM_Forall2. subst n.
  assert (G : forall s, (forall i, i < length out -> nth_error L (g (s + i)) = nth_error out i) ->
     Forall2 (fun x y => nth_error L (g x) = Some y) (seq s (length out)) out).
  { clear H. induction out as [|x out IH]; intros s H; cbn; constructor.
    - specialize (H 0). rewrite Nat.add_0_r in H. apply H. cbn. lia.
    - apply IH. intros i Hi. specialize (H (S i)). cbn in H. replace (S s + i) with (s + S i) by lia. apply H. lia. }
  apply (G 0). exact H.
Qed.

(** ** fill *)
Lemma fill_length {X} (C : list nat) : forall (args rest : list X) s,
  length rest = length (outs C (seq s (length args))) -> length (fill C s args rest) = length args.
Proof.
  induction args as [|a args IH]; intros rest s H; cbn; [reflexivity|]. cbn in H. fold (isin C s).
  unfold outs in H. cbn in H. destruct (isin C s); cbn in *.
  - f_equal. apply IH. exact H.
  - destruct rest as [|r rest]; [discriminate|]. cbn in *. f_equal. apply IH. unfold outs. lia.
Qed.
Lemma fill_nth {X} (C : list nat) : forall (args rest : list X) s i,
  length rest = length (outs C (seq s (length args))) -> i < length args ->
  nth_error (fill C s args rest) i =
  if isin C (s + i) then nth_error args i else nth_error rest (length (outs C (seq s i))).
Proof.
  induction args as [|a args IH]; intros rest s i H Hi; cbn in Hi; [lia|]. cbn [fill]. fold (isin C s).
  unfold outs in H. cbn in H. destruct i as [|i].
  - rewrite Nat.add_0_r. destruct (isin C s); [reflexivity|]. destruct rest; [discriminate|reflexivity].
  - replace (s + S i) with (S s + i) by lia. unfold outs. cbn [seq filter]. destruct (isin C s); cbn in *.
    + apply IH; [exact H|lia].
    + destruct rest as [|r rest]; [discriminate|]. cbn in *. apply IH; [unfold outs; lia|lia].
Qed.

Lemma gather_some {X} (args : list X) ks : Forall (fun k => k < length args) ks -> exists r, gather args ks = Some r.
Proof.
  induction 1 as [|k ks Hk Hf (r & IH)]; [exists []; reflexivity|].
  destruct (nth_error args k) as [x|] eqn:E; [|apply nth_error_None in E; lia].
  exists (x :: r). unfold gather in *. cbn. rewrite E, IH. reflexivity.
Qed.
Lemma gather_nth {X} (args : list X) ks r j k : gather args ks = Some r -> nth_error ks j = Some k -> nth_error r j = nth_error args k.
Proof.
  unfold gather. intros H. apply mapM_Forall2 in H. revert j. induction H as [|x y ks r E H IH]; intros j; [destruct j; discriminate|].
  destruct j; cbn; [intros [= <-]; congruence|apply IH].
Qed.

(** The core: whatever order of positions pe arrives at, if it lists some distinct positions
    [D], then the others in increasing order, then the positions [D] are fixed. *)
Lemma pe_core {X Y} (args : list X) (consts D : list nat) (f : list X -> Y) :
  consts <> [] -> length D = length consts -> NoDup D -> below (length args) D ->
  pe_order consts (seq 0 (length args)) = Some (D ++ outs D (seq 0 (length args))) ->
  exists g, pe args consts f = Some g /\
    forall rest, length rest = length args - length consts -> g rest = Some (f (fill D 0 args rest)).
Proof.
  intros Hc HD Hn Hb Eo.
  assert (El : length (outs D (seq 0 (length args))) = length args - length consts) by (rewrite <- HD; apply outs_length; assumption).
  destruct (gather_some args (D ++ outs D (seq 0 (length args)))) as [dark Ed].
  { apply Forall_app. split; [exact Hb|]. apply Forall_forall. intros x Hx. apply filter_In in Hx.
    rewrite in_seq in Hx. lia. }
  assert (Hle : length consts <= length args).
  { rewrite <- HD. pose proof (NoDup_incl_length (l := D) (l' := seq 0 (length args)) Hn) as Hi. rewrite seq_length in Hi. apply Hi.
    intros p Hp. apply in_seq. unfold below in Hb. rewrite Forall_forall in Hb. specialize (Hb p Hp). lia. }
  assert (Eol : length (D ++ outs D (seq 0 (length args))) = length args).
  { rewrite app_length, El. lia. }
  assert (Edl : length dark = length args).
  { unfold gather in Ed. apply mapM_length in Ed. congruence. }
  exists (fun rest => if length rest =? length args - length consts
     then new_args <- gather (firstn (length consts) dark ++ rest) (argsort (D ++ outs D (seq 0 (length args)))) ;; Some (f new_args)
     else None).
  split.
  { unfold pe. rewrite Eo. cbn [bind]. rewrite Ed. cbn [bind]. destruct consts; [congruence|reflexivity]. }
  intros rest Hr. rewrite Hr, Nat.eqb_refl.
  unfold argsort. rewrite Eol. rewrite (gather_spec _ _ _ (fill D 0 args rest)); [reflexivity| |].
  + apply fill_length. congruence.
  + intros i Hi. rewrite fill_nth by (congruence || assumption). cbn [Nat.add].
    destruct (isin D i) eqn:Ei.
    * apply isin_In in Ei.
      rewrite index_of_app_l by assumption. pose proof (index_of_lt _ _ Ei) as Hlt.
      rewrite nth_error_app1 by (rewrite firstn_length; lia).
      assert (Ef : forall (l : list X) n j, j < n -> nth_error (firstn n l) j = nth_error l j).
      { clear. induction l as [|x l IH]; intros [|n] [|j] H; cbn; try lia; try reflexivity. apply IH. lia. }
      rewrite Ef by lia. apply (gather_nth _ _ _ _ _ Ed). rewrite nth_error_app1 by assumption.
      apply index_of_nth. assumption.
    * apply isin_not in Ei. rewrite index_of_app_r by assumption.
      rewrite nth_error_app2, firstn_length by (rewrite firstn_length; lia).
      rewrite index_of_outs by assumption. f_equal. lia.
Qed.
Lemma fill_ext {X} C D : (forall i, isin C i = isin D i) -> forall (args rest : list X) s, fill C s args rest = fill D s args rest.
Proof.
  intros H. induction args as [|a args IH]; intros rest s; cbn; [reflexivity|]. fold (isin C s) (isin D s). rewrite H.
  destruct (isin D s); [rewrite IH; reflexivity|]. destruct rest; [reflexivity|]. rewrite IH. reflexivity.
Qed.
Lemma outs_ext C D l : (forall i, isin C i = isin D i) -> outs C l = outs D l.
Proof. intros H. unfold outs. apply filter_ext. intros i. rewrite H. reflexivity. Qed.
Lemma isin_rev C i : isin (rev C) i = isin C i.
Proof.
  destruct (isin C i) eqn:E; [apply isin_In; apply -> in_rev; apply isin_In; assumption|].
  apply isin_not. rewrite <- in_rev. apply isin_not. assumption.
Qed.

Lemma pe_asc {X Y} (args : list X) (consts : list nat) (f : list X -> Y) :
  ascending consts -> below (length args) consts ->
  exists g, pe args consts f = Some g /\
    forall rest, length rest = length args - length consts -> g rest = Some (f (fill consts 0 args rest)).
Proof.
  intros Ha Hb. destruct consts as [|k0 C0] eqn:EC.
  - exists (fun rest => Some (f rest)). split; [reflexivity|]. intros rest H. f_equal. f_equal. cbn in H.
    rewrite Nat.sub_0_r in H. symmetry. clear - H. generalize 0. revert rest H.
    induction args as [|a args IH]; intros [|r rest] H s; cbn in *; try discriminate; [reflexivity|]. f_equal. apply IH. lia.
  - rewrite <- EC in *. destruct (pe_core args consts (rev consts) f) as (g & Eg & Hg).
    + congruence.
    + apply rev_length.
    + apply NoDup_rev, ascending_NoDup. assumption.
    + apply Forall_rev. assumption.
    + rewrite pe_order_asc0 by assumption. rewrite (outs_ext (rev consts) consts) by apply isin_rev. reflexivity.
    + exists g. split; [assumption|]. intros rest Hr. rewrite Hg by assumption. do 2 f_equal. apply fill_ext, isin_rev.
Qed.

(** Two positions, the larger first: the second position meant is missed by one. *)
Lemma pe_order_desc2 n k1 k2 : 1 <= k2 -> k2 < k1 -> k1 < n ->
  pe_order [k1; k2] (seq 0 n) = Some ([k2 - 1; k1] ++ outs [k2 - 1; k1] (seq 0 n)).
Proof.
  intros H1 H2 H3. cbn [pe_order].
  assert (O1 : forall k D, k < n -> (forall i, In i D -> i < k) -> outs D (seq 0 n) = outs D (seq 0 k) ++ k :: seq (S k) (n - S k)).
  { intros k D Hk HD. rewrite (seq_split3 k n Hk) at 1. unfold outs. rewrite filter_app. f_equal.
    apply (outs_all D (k :: seq (S k) (n - S k))). intros i Hi Hp. specialize (HD i Hp). cbn in Hi. rewrite in_seq in Hi. lia. }
  rewrite (seq_split3 k1 n H3). rewrite (pop_at _ _ _ _ (seq_length k1 0)). cbn [bind fst snd].
  rewrite (seq_split3 (k2 - 1) k1) by lia.
  replace (k1 :: (seq 0 (k2 - 1) ++ k2 - 1 :: seq (S (k2 - 1)) (k1 - S (k2 - 1))) ++ seq (S k1) (n - S k1))
    with ((k1 :: seq 0 (k2 - 1)) ++ k2 - 1 :: (seq (S (k2 - 1)) (k1 - S (k2 - 1)) ++ seq (S k1) (n - S k1)))
    by (cbn; rewrite <- app_assoc; reflexivity).
  rewrite (pop_at (k1 :: seq 0 (k2 - 1))) by (cbn; rewrite seq_length; lia). cbn [bind fst snd app]. f_equal. f_equal.
  assert (E1 : isin [k2 - 1; k1] (k2 - 1) = true) by (apply isin_In; left; reflexivity).
  assert (E2 : isin [k2 - 1; k1] k1 = true) by (apply isin_In; right; left; reflexivity).
  f_equal. unfold outs. rewrite !filter_app. cbn [filter]. rewrite E1, E2. cbn [negb].
  rewrite !filter_id; [rewrite <- app_assoc; reflexivity| | |].
  all: intros x Hx; rewrite in_seq in Hx; unfold isin; cbn; destruct (Nat.eqb_spec x (k2 - 1)), (Nat.eqb_spec x k1); cbn; try reflexivity; lia.
Qed.
Lemma pe_desc2 {X Y} (args : list X) k1 k2 (f : list X -> Y) :
  1 <= k2 -> k2 < k1 -> k1 < length args ->
  exists g, pe args [k1; k2] f = Some g /\
    forall rest, length rest = length args - 2 -> g rest = Some (f (fill [k2 - 1; k1] 0 args rest)).
Proof.
  intros H1 H2 H3. apply (pe_core args [k1; k2] [k2 - 1; k1] f); [discriminate|reflexivity| | |].
  - repeat constructor; cbn; lia.
  - repeat constructor; lia.
  - apply pe_order_desc2; assumption.
Qed.

(** ** The solvers *)
Lemma drop_app {X} C : forall (A B : list X) s, drop C s (A ++ B) = drop C s A ++ drop C (s + length A) B.
Proof.
  induction A as [|a A IH]; intros B s; cbn; [rewrite Nat.add_0_r; reflexivity|].
  rewrite IH. replace (S s + length A) with (s + S (length A)) by lia. destruct (isin C s); reflexivity.
Qed.
Lemma drop_ext {X} C C' : forall (A : list X) s, (forall i, s <= i < s + length A -> isin C i = isin C' i) -> drop C s A = drop C' s A.
Proof.
  induction A as [|a A IH]; intros s H; cbn; [reflexivity|]. rewrite (H s) by (cbn; lia).
  rewrite (IH (S s)) by (intros i Hi; apply H; cbn; lia). reflexivity.
Qed.
Lemma drop_none {X} C : forall (A : list X) s, (forall i, s <= i -> ~ In i C) -> drop C s A = A.
Proof.
  induction A as [|a A IH]; intros s H; cbn; [reflexivity|].
  replace (isin C s) with false by (symmetry; apply isin_not, H; lia). f_equal. apply IH. intros; apply H; lia.
Qed.
Lemma fill_drop {X} C : forall (args : list X) s, fill C s args (drop C s args) = args.
Proof.
  induction args as [|a args IH]; intros s; cbn; [reflexivity|]. fold (isin C s).
  destruct (isin C s); cbn; rewrite IH; reflexivity.
Qed.
Lemma drop_length {X} C : forall (args : list X) s, length (drop C s args) = length (outs C (seq s (length args))).
Proof.
  induction args as [|a args IH]; intros s; cbn; [reflexivity|]. unfold outs in *. cbn. destruct (isin C s); cbn; auto.
Qed.
Lemma ascending_snoc C k : ascending (C ++ [k]) -> ascending C /\ Forall (fun x => x < k) C.
Proof.
  induction C as [|x C IH]; cbn; intros H; [split; constructor|]. inversion H as [|? ? Hs Hf]; subst.
  destruct (IH Hs) as [I1 I2]. apply Forall_app in Hf. destruct Hf as [F1 F2]. inversion F2; subst.
  split; constructor; assumption.
Qed.
Lemma pops_drop {X} : forall C (args : list X), ascending C -> Forall (fun k => 1 <= k <= length args) C ->
  pops (rev C) args = Some (drop C 1 args).
Proof.
  induction C as [|k C IH] using rev_ind; intros args Ha Hb.
  - cbn. rewrite drop_none by (intros i _ []). reflexivity.
  - destruct (ascending_snoc _ _ Ha) as [Ha' Hlt]. apply Forall_app in Hb. destruct Hb as [Hb' Hk]. inversion Hk as [|? ? Hk' _]; subst.
    rewrite rev_app_distr. cbn [rev app pops]. destruct (Nat.eqb_spec k 0) as [|_]; [lia|].
    assert (exists A a B, args = A ++ a :: B /\ length A = k - 1) as (A & a & B & -> & El).
    { exists (firstn (k - 1) args). destruct (skipn (k - 1) args) as [|a B] eqn:E.
      - apply (f_equal (@length X)) in E. rewrite skipn_length in E. cbn in E. lia.
      - exists a, B. split; [rewrite <- E; symmetry; apply firstn_skipn|]. rewrite firstn_length. lia. }
    rewrite (pop_at _ _ _ _ El). cbn [bind snd]. rewrite IH.
    + f_equal. rewrite !drop_app. rewrite El. replace (1 + (k - 1)) with k by lia. cbn [drop].
      replace (isin (C ++ [k]) k) with true by (symmetry; apply isin_In, in_or_app; right; left; reflexivity).
      rewrite Forall_forall in Hlt. f_equal.
      * apply drop_ext. intros i Hi. rewrite El in Hi. unfold isin. rewrite existsb_app. cbn.
        destruct (Nat.eqb_spec i k); [lia|]. rewrite !orb_false_r. reflexivity.
      * rewrite !drop_none; [reflexivity| |].
        -- intros i Hi Hc. apply in_app_or in Hc. cbn in Hc. destruct Hc as [Hc|[Hc|[]]]; [specialize (Hlt _ Hc)|]; lia.
        -- intros i Hi Hc. specialize (Hlt _ Hc). lia.
    + assumption.
    + apply Forall_forall. intros x Hx. rewrite Forall_forall in Hb', Hlt. specialize (Hb' _ Hx). specialize (Hlt _ Hx).
      rewrite app_length in *. cbn in *. lia.
Qed.
Lemma insert_min x l : Forall (fun y => x < y) l -> insert x l = x :: l.
Proof. destruct l as [|y l]; intros H; cbn; [reflexivity|]. inversion H; subst. destruct (Nat.leb_spec x y); [reflexivity|lia]. Qed.
Lemma sort_asc l : ascending l -> sort l = l.
Proof.
  induction 1 as [|k l Hs IH Hf]; cbn; [reflexivity|]. unfold sort in IH. rewrite IH. apply insert_min. assumption.
Qed.

Lemma wire_asc {X Y} xi (args : list X) consts (g : list X -> Y) :
  ascending consts -> List.Forall (fun k => 1 <= k <= length args) consts ->
  exists w, wire xi args consts g = Some w /\
    (forall x, wired_eval w x = Some (g (x :: args))) /\ w_consts w = rev consts /\
    w_args w = drop consts 1 args.
Proof.
  intros Ha Hb. destruct consts as [|k0 C0] eqn:EC.
  - exists (Wired (fun l => Some (g l)) args []). repeat split. cbn. rewrite drop_none by (intros i _ []). reflexivity.
  - rewrite <- EC in *.
    assert (Hb2 : below (length (xi :: args)) consts).
    { eapply Forall_impl; [|exact Hb]. cbn. intros. lia. }
    destruct (pe_asc (xi :: args) consts g Ha Hb2) as (g' & Eg & Hg).
    pose proof (pops_drop consts args Ha Hb) as Ep.
    exists (Wired g' (drop consts 1 args) (rev consts)). split.
    { unfold wire. rewrite Eg. cbn [bind]. rewrite (sort_asc _ Ha), Ep. cbn [bind]. rewrite EC. reflexivity. }
    split; [|split; reflexivity].
    intros x. unfold wired_eval. cbn [w_fun w_args].
    assert (H0 : isin consts 0 = false).
    { apply isin_not. intros Hi. rewrite Forall_forall in Hb. specialize (Hb _ Hi). lia. }
    rewrite Hg.
    + f_equal. f_equal. cbn [fill]. fold (isin consts 0). rewrite H0. f_equal. apply fill_drop.
    + cbn [length]. rewrite drop_length.
      pose proof (outs_length consts (length (xi :: args)) (ascending_NoDup _ Ha) Hb2) as Ho. cbn [length seq] in Ho.
      unfold outs in Ho. cbn [filter] in Ho. rewrite H0 in Ho. cbn [negb length] in Ho. unfold outs. lia.
Qed.

(** What a second call with the same list object does, for two constants. *)
Lemma sort2 k1 k2 : k2 < k1 -> sort [k1; k2] = [k2; k1].
Proof. intros H. cbn. destruct (Nat.leb_spec k1 k2); [lia|reflexivity]. Qed.
Lemma wire_desc2 {X Y} xi (args : list X) k1 k2 (g : list X -> Y) :
  1 <= k2 -> k2 < k1 -> k1 <= length args ->
  exists w, wire xi args [k1; k2] g = Some w /\
    forall x, wired_eval w x = Some (g (fill [k2 - 1; k1] 0 (xi :: args) (x :: drop [k2; k1] 1 args))).
Proof.
  intros H1 H2 H3. destruct (pe_desc2 (xi :: args) k1 k2 g H1 H2) as (g' & Eg & Hg); [cbn; lia|].
  pose proof (pops_drop [k2; k1] args) as Ep.
  assert (Ha : ascending [k2; k1]) by (repeat constructor; assumption).
  assert (Hb : List.Forall (fun k => 1 <= k <= length args) [k2; k1]) by (repeat constructor; lia).
  specialize (Ep Ha Hb). eexists. split.
  { unfold wire. rewrite Eg. cbn [bind]. rewrite sort2 by assumption. rewrite Ep. cbn [bind]. reflexivity. }
  intros x. unfold wired_eval. cbn [w_fun w_args]. rewrite Hg; [reflexivity|].
  cbn [length]. rewrite drop_length.
  pose proof (outs_length [k2; k1] (length (xi :: args)) (ascending_NoDup _ Ha)) as Ho. cbn [length seq] in Ho.
  unfold outs in Ho. cbn [filter] in Ho. replace (isin [k2; k1] 0) with false in Ho.
  - cbn [negb length] in Ho. unfold outs. rewrite Nat.sub_succ. rewrite Nat.sub_succ in Ho.
    assert (S (length (filter (fun i => negb (isin [k2; k1] i)) (seq 1 (length args)))) = length args - 1); [|lia].
    apply Ho. apply Forall_forall. cbn. intros ? ?. lia.
  - symmetry. apply isin_not. cbn. lia.
Qed.
