From Coq Require Import List Bool Arith Lia.
From Verif Require Import Base ModelCrop SpecCrop.
Import ListNotations.

Lemma in_combine_seq {A} (l : list A) s i a : In (i, a) (combine (seq s (length l)) l) <-> s <= i /\ nth_error l (i - s) = Some a.
Proof.
  revert s. induction l as [|b l IH]; intros s; cbn [length seq combine].
  - split; [intros []|]. intros [_ E]. destruct (i - s); discriminate.
  - cbn [In]. rewrite IH. split.
    + intros [E|[H E]]; [injection E as -> ->; rewrite Nat.sub_diag; auto|]. split; [lia|]. replace (i - s) with (S (i - S s)) by lia. exact E.
    + intros [H E]. destruct (Nat.eq_dec i s) as [->|Hne]; [left; rewrite Nat.sub_diag in E; cbn in E; congruence|right].
      split; [lia|]. replace (i - s) with (S (i - S s)) in E by lia. exact E.
Qed.
Lemma in_indexed {A} (l : list A) i a : In (i, a) (indexed l) <-> nth_error l i = Some a.
Proof. unfold indexed. rewrite in_combine_seq, Nat.sub_0_r. intuition lia. Qed.
Lemma nth_combine {A B} (l : list A) (m : list B) i a b : nth_error (combine l m) i = Some (a, b) <-> nth_error l i = Some a /\ nth_error m i = Some b.
Proof.
  revert m i. induction l as [|x l IH]; intros [|y m] [|i]; cbn; try (split; [discriminate|intros [? ?]; discriminate]).
  - split; [intros E; injection E as -> ->; auto|intros [E F]; congruence].
  - apply IH.
Qed.
Lemma in_argwhere im bl i j z : In (i, j, z) (argwhere im bl) <->
  exists v b, channel im i j z = Some v /\ nth_error bl z = Some b /\ v <> b.
Proof.
  unfold argwhere, channel, pixel. rewrite in_flat_map. split.
  - intros [[i' row] [Hi H]]. apply in_indexed in Hi. apply in_flat_map in H as [[j' px] [Hj H]]. apply in_indexed in Hj.
    apply in_flat_map in H as [[z' [v b]] [Hz H]]. apply in_indexed in Hz. destruct (Nat.eqb_spec v b) as [|Hne]; [destruct H|].
    destruct H as [E|[]]. injection E as <- <- <-. apply nth_combine in Hz as [Hv Hb]. exists v, b. rewrite Hi, Hj. auto.
  - intros [v [b [E [Hb Hne]]]]. destruct (nth_error im i) as [row|] eqn:Ei; [|discriminate]. destruct (nth_error row j) as [px|] eqn:Ej; [|discriminate].
    exists (i, row). split; [apply in_indexed, Ei|]. apply in_flat_map. exists (j, px). split; [apply in_indexed, Ej|].
    apply in_flat_map. exists (z, (v, b)). split; [apply in_indexed, nth_combine; auto|].
    rewrite (proj2 (Nat.eqb_neq _ _) Hne). left. reflexivity.
Qed.
Lemma fold_min l a : let m := fold_left Nat.min l a in (m = a \/ In m l) /\ m <= a /\ forall x, In x l -> m <= x.
Proof.
  revert a. induction l as [|b l IH]; intros a; cbn [fold_left]; [split; [left; reflexivity|split; [lia|intros x []]]|].
  destruct (IH (Nat.min a b)) as [H1 [H2 H3]]. cbv zeta. split; [|split; [lia|]].
  - destruct H1 as [->|H1]; [|right; right; exact H1]. destruct (Nat.min_dec a b) as [->| ->]; [left; reflexivity|right; left; reflexivity].
  - intros x [<-|Hx]; [lia|apply H3, Hx].
Qed.
Lemma fold_max l a : let m := fold_left Nat.max l a in (m = a \/ In m l) /\ a <= m /\ forall x, In x l -> x <= m.
Proof.
  revert a. induction l as [|b l IH]; intros a; cbn [fold_left]; [split; [left; reflexivity|split; [lia|intros x []]]|].
  destruct (IH (Nat.max a b)) as [H1 [H2 H3]]. cbv zeta. split; [|split; [lia|]].
  - destruct H1 as [->|H1]; [|right; right; exact H1]. destruct (Nat.max_dec a b) as [->| ->]; [left; reflexivity|right; left; reflexivity].
  - intros x [<-|Hx]; [lia|apply H3, Hx].
Qed.
Lemma min_of_spec l : l <> [] -> exists m, min_of l = Some m /\ In m l /\ forall x, In x l -> m <= x.
Proof.
  destruct l as [|a l]; [contradiction|]. intros _. exists (fold_left Nat.min l a). split; [reflexivity|]. destruct (fold_min l a) as [H1 [H2 H3]].
  split; [destruct H1 as [->|H1]; [left; reflexivity|right; exact H1]|]. intros x [<-|Hx]; [exact H2|apply H3, Hx].
Qed.
Lemma max_of_spec l : l <> [] -> exists m, max_of l = Some m /\ In m l /\ forall x, In x l -> x <= m.
Proof.
  destruct l as [|a l]; [contradiction|]. intros _. exists (fold_left Nat.max l a). split; [reflexivity|]. destruct (fold_max l a) as [H1 [H2 H3]].
  split; [destruct H1 as [->|H1]; [left; reflexivity|right; exact H1]|]. intros x [<-|Hx]; [exact H2|apply H3, Hx].
Qed.
Lemma nth_skipn {A} (l : list A) a i : nth_error (skipn a l) i = nth_error l (a + i).
Proof. revert l. induction a; intros [|x l]; cbn; try reflexivity; [destruct i; reflexivity|]. apply IHa. Qed.
Lemma nth_firstn {A} (l : list A) n i : i < n -> nth_error (firstn n l) i = nth_error l i.
Proof. revert l i. induction n; intros [|x l] [|i] H; cbn; try lia; try reflexivity. apply IHn. lia. Qed.
Lemma nth_slice {A} a b (l : list A) i : i < b - a -> nth_error (slice a b l) i = nth_error l (a + i).
Proof. intros H. unfold slice. rewrite nth_firstn by exact H. apply nth_skipn. Qed.
Lemma slice_length {A} a b (l : list A) : b <= length l -> length (slice a b l) = b - a.
Proof. intros H. unfold slice. rewrite firstn_length, skipn_length. lia. Qed.
Lemma in_skipn {A} (l : list A) a x : In x (skipn a l) -> In x l.
Proof. intros H. rewrite <- (firstn_skipn a l). apply in_or_app. right. exact H. Qed.
Lemma in_firstn {A} (l : list A) a x : In x (firstn a l) -> In x l.
Proof. intros H. rewrite <- (firstn_skipn a l). apply in_or_app. left. exact H. Qed.
Lemma in_slice {A} a b (l : list A) x : In x (slice a b l) -> In x l.
Proof. intros H. eapply in_skipn, in_firstn, H. Qed.
Lemma slice_all {A} (l : list A) : slice 0 (length l) l = l.
Proof. unfold slice. rewrite Nat.sub_0_r. apply firstn_all. Qed.

Section Crop.
Variables (im : image) (h w n : nat).
Hypotheses (Hrect : rectangular im h w n) (Hh : 0 < h) (Hw : 0 < w).
Lemma pixel_some i j px : pixel im i j = Some px -> i < h /\ j < w /\ length px = n.
Proof.
  unfold pixel. intros E. destruct (nth_error im i) as [row|] eqn:Ei; [|discriminate]. destruct Hrect as [L HR].
  destruct (HR row (nth_error_In _ _ Ei)) as [Lr HP]. split; [rewrite <- L; apply nth_error_Some; congruence|].
  split; [rewrite <- Lr; apply nth_error_Some; congruence|]. apply HP, (nth_error_In _ _ E).
Qed.
Lemma pixel_in i j : i < h -> j < w -> exists px, pixel im i j = Some px.
Proof.
  intros Hi Hj. destruct Hrect as [L HR]. destruct (nth_error im i) as [row|] eqn:Ei; [|apply nth_error_None in Ei; lia].
  destruct (HR row (nth_error_In _ _ Ei)) as [Lr _]. destruct (nth_error row j) as [px|] eqn:Ej; [|apply nth_error_None in Ej; lia].
  exists px. unfold pixel. rewrite Ei. exact Ej.
Qed.
(** the corner pixel and the coordinates of what differs from it *)
Lemma corner : exists bl, pixel im 0 0 = Some bl /\ length bl = n /\
  (row0 <- nth_error im 0 ;; nth_error row0 0) = Some bl /\
  (forall i j z, In (i, j, z) (argwhere im bl) <-> exists v, channel im i j z = Some v /\ channel im 0 0 z <> Some v) /\
  (forall i j, drawn im i j <-> exists z, In (i, j, z) (argwhere im bl)).
Proof.
  destruct (pixel_in 0 0 Hh Hw) as [bl E]. exists bl. split; [exact E|]. destruct (pixel_some 0 0 bl E) as [_ [_ Hn]]. split; [exact Hn|]. split.
  { unfold pixel in E. destruct (nth_error im 0); [exact E|discriminate]. }
  assert (forall i j z, In (i, j, z) (argwhere im bl) <-> exists v, channel im i j z = Some v /\ channel im 0 0 z <> Some v) as HA.
  { intros i j z. rewrite in_argwhere. unfold channel at 3. rewrite E. split.
    - intros [v [b [Ev [Eb Hne]]]]. exists v. split; [exact Ev|]. congruence.
    - intros [v [Ev Hne]]. exists v. assert (z < n) as Hz.
      { unfold channel in Ev. destruct (pixel im i j) as [px|] eqn:Ep; [|discriminate]. rewrite <- (proj2 (proj2 (pixel_some i j px Ep))). apply nth_error_Some. congruence. }
      destruct (nth_error bl z) as [b|] eqn:Eb; [|apply nth_error_None in Eb; lia]. exists b. repeat split; congruence. }
  split; [exact HA|]. intros i j. unfold drawn. rewrite E. split.
  - intros [px [Ep Hne]]. destruct (pixel_some i j px Ep) as [_ [_ Lp]].
    assert (~ forall z, nth_error px z = nth_error bl z) as Hd.
    { intros A. apply Hne. f_equal. symmetry. clear - A. revert bl A. induction px as [|p px IH]; intros [|b bl] A; [reflexivity|discriminate (A 0)|discriminate (A 0)|].
      f_equal; [specialize (A 0); cbn in A; congruence|]. apply IH. intros z. apply (A (S z)). }
    destruct (list_eq_dec Nat.eq_dec px bl) as [->|Hnp]; [congruence|].
    assert (exists z v b, nth_error px z = Some v /\ nth_error bl z = Some b /\ v <> b) as [z [v [b [Ev [Eb Hv]]]]].
    { clear - Lp Hn Hnp. assert (length px = length bl) as L by congruence. clear Lp Hn. revert bl L Hnp. induction px as [|p px IH]; intros [|b bl] L Hnp; [contradiction|discriminate|discriminate|].
      destruct (Nat.eq_dec p b) as [->|Hpb]; [|exists 0, p, b; cbn; auto].
      destruct (IH bl) as [z [v [c [E1 [E2 E3]]]]]; [cbn in L; congruence|congruence|]. exists (S z), v, c. cbn. auto. }
    exists z. apply in_argwhere. exists v, b. unfold channel. rewrite Ep. auto.
  - intros [z Hz]. apply in_argwhere in Hz as [v [b [Ev [Eb Hv]]]]. unfold channel in Ev. destruct (pixel im i j) as [px|] eqn:Ep; [|discriminate].
    exists px. split; [reflexivity|]. congruence.
Qed.
Lemma varies_in bl z : (forall i j z, In (i, j, z) (argwhere im bl) <-> exists v, channel im i j z = Some v /\ channel im 0 0 z <> Some v) ->
  varies im z <-> In z (map snd (argwhere im bl)).
Proof.
  intros HA. split.
  - intros [i [j [v H]]]. apply in_map_iff. exists (i, j, z). split; [reflexivity|]. apply HA. exists v. exact H.
  - intros H. apply in_map_iff in H as [[[i j] z'] [E H]]. cbn in E. subst z'. apply HA in H as [v H]. exists i, j, v. exact H.
Qed.
Theorem crop_spec :
  (n = 4 -> varies im 0 -> varies im 3 -> exists out, tight_png im = Some out /\ tight im out) /\
  (n <= 4 -> ~ (n = 4 /\ varies im 0 /\ varies im 3) -> tight_png im = None).
Proof.
  destruct corner as [bl [E [Ln [Eb [HA HD]]]]]. pose proof (fun z => varies_in bl z HA) as HV.
  assert (forall z, In z (map snd (argwhere im bl)) -> z < n) as Hzn.
  { intros z Hz. apply in_map_iff in Hz as [[[i j] z'] [Ez Hi]]. cbn in Ez. subst z'. apply in_argwhere in Hi as [v [b [_ [Hb _]]]].
    rewrite <- Ln. apply nth_error_Some. congruence. }
  unfold tight_png. destruct (nth_error im 0) as [row0|]; [|discriminate]. cbn [bind] in *. rewrite Eb. cbn [bind].
  set (co := argwhere im bl) in *. assert (co = [] \/ co <> []) as [Hco|Hco] by (destruct co; [left; reflexivity|right; discriminate]).
  - split; [intros _ H0; apply HV in H0; rewrite Hco in H0; destruct H0|]. intros _ _. rewrite Hco. reflexivity.
  - assert (forall {B} (g : nat * nat * nat -> B), map g co <> []) as Hm by (intros B g Hg; apply map_eq_nil in Hg; contradiction).
    destruct (min_of_spec (map (fun p => fst (fst p)) co) (Hm _ _)) as [x0 [-> [Ix0 Bx0]]].
    destruct (min_of_spec (map (fun p => snd (fst p)) co) (Hm _ _)) as [y0 [-> [Iy0 By0]]].
    destruct (min_of_spec (map snd co) (Hm _ _)) as [z0 [-> [Iz0 Bz0]]].
    destruct (max_of_spec (map (fun p => fst (fst p)) co) (Hm _ _)) as [x1 [-> [Ix1 Bx1]]].
    destruct (max_of_spec (map (fun p => snd (fst p)) co) (Hm _ _)) as [y1 [-> [Iy1 By1]]].
    destruct (max_of_spec (map snd co) (Hm _ _)) as [z1 [-> [Iz1 Bz1]]]. cbn [bind].
    assert (forall i j, drawn im i j -> x0 <= i < S x1 /\ y0 <= j < S y1) as HC.
    { intros i j Hd. apply HD in Hd as [z Hz].
      assert (In i (map (fun p => fst (fst p)) co)) as I1 by (apply in_map_iff; exists (i, j, z); auto).
      assert (In j (map (fun p => snd (fst p)) co)) as I2 by (apply in_map_iff; exists (i, j, z); auto).
      pose proof (Bx0 _ I1). pose proof (Bx1 _ I1). pose proof (By0 _ I2). pose proof (By1 _ I2). lia. }
    assert (forall a, In a (map (fun p => fst (fst p)) co) -> exists j, drawn im a j) as HX.
    { intros a Ha. apply in_map_iff in Ha as [[[i j] z] [<- Hi]]. exists j. apply HD. exists z. exact Hi. }
    assert (forall a, In a (map (fun p => snd (fst p)) co) -> exists i, drawn im i a) as HY.
    { intros a Ha. apply in_map_iff in Ha as [[[i j] z] [<- Hi]]. exists i. apply HD. exists z. exact Hi. }
    split.
    + intros Hn H0 H3. apply HV in H0, H3. pose proof (Bz0 _ H0). pose proof (Bz1 _ H3). pose proof (Hzn _ Iz1).
      assert (z0 = 0) by lia. assert (z1 = 3) by lia. subst z0 z1. cbn [Nat.leb Nat.sub]. eexists. split; [reflexivity|].
      exists x0, (S x1), y0, (S y1). destruct Hrect as [Lh HR].
      destruct (HX _ Ix1) as [jx [px [Epx _]]]. destruct (pixel_some _ _ _ Epx) as [Hx1 _].
      destruct (HY _ Iy1) as [iy [py [Epy _]]]. destruct (pixel_some _ _ _ Epy) as [_ [Hy1 _]].
      split; [|split; [exact HC|split]].
      * split; [rewrite map_length; apply slice_length; lia|]. split.
        -- intros row Hrow. apply in_map_iff in Hrow as [r0 [<- Hr0]]. rewrite map_length. apply slice_length. apply in_slice in Hr0.
           rewrite (proj1 (HR r0 Hr0)). lia.
        -- intros i j Hi Hj. unfold pixel. rewrite nth_error_map, nth_slice by exact Hi.
           destruct (nth_error im (x0 + i)) as [r0|] eqn:Er0; [|reflexivity]. cbn [option_map]. rewrite nth_error_map, nth_slice by exact Hj.
           destruct (nth_error r0 (y0 + j)) as [px0|] eqn:Ep0; [|reflexivity]. cbn [option_map]. f_equal.
           assert (length px0 = 4) as L4 by (rewrite <- Hn; apply (HR r0 (nth_error_In _ _ Er0)), (nth_error_In _ _ Ep0)).
           rewrite <- L4. apply slice_all.
      * destruct (HX _ Ix0) as [j Hj]. exists x0, j. exact Hj.
      * intros t b l r Hc. destruct (HX _ Ix0) as [j1 D1]. destruct (HX _ Ix1) as [j2 D2]. destruct (HY _ Iy0) as [i1 D3]. destruct (HY _ Iy1) as [i2 D4].
        apply Hc in D1, D2, D3, D4. lia.
    + intros Hn HN. destruct (Nat.leb_spec 4 (S z1 - z0)) as [Hz|_]; [|reflexivity]. destruct HN.
      pose proof (Hzn _ Iz1). assert (z0 = 0) by lia. assert (z1 = 3) by lia. subst z0 z1. split; [lia|]. split; apply HV; assumption.
Qed.
End Crop.
