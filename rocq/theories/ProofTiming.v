(** Lemmas about traces. *)
From Coq Require Import List Arith Bool Lia.
From Verif Require Import Base ModelDict ModelTiming SpecTiming.
Import ListNotations.

(** steps of the device alone *)
Inductive dev : st -> list event -> st -> Prop :=
| d_nil s : dev s [] s
| d_end s c t s' : In c (s_run s) ->
    dev (St (s_cache s) (remove Nat.eq_dec c (s_run s)) (s_next s)) t s' -> dev s (EEnd c :: t) s'.

Lemma exec_nil s t s' : exec s [] t s' -> dev s t s'.
Proof.
  remember [] as p eqn:Ep. induction 1; try discriminate.
  - constructor.
  - econstructor; [eassumption|]. apply IHexec, Ep.
Qed.
Lemma exec_call_inv s k p t s' : exec s (Call k :: p) t s' ->
  exists d s1 t', dev s d s1 /\ t = d ++ fst (call s1 k) ++ t' /\ exec (snd (call s1 k)) p t' s'.
Proof.
  remember (Call k :: p) as q eqn:Eq. induction 1; try discriminate.
  - destruct (IHexec Eq) as (d & s1 & t' & H1 & -> & H2). exists (EEnd c :: d), s1, t'.
    split; [econstructor; eassumption|]. split; [reflexivity|exact H2].
  - injection Eq as -> ->. exists [], s, t. split; [constructor|]. split; [reflexivity|exact H].
Qed.
Lemma exec_wait_inv s p t s' : exec s (WaitLast :: p) t s' ->
  exists d s1 t', dev s d s1 /\ t = d ++ t' /\ (forall c, S c = s_next s1 -> ~ In c (s_run s1)) /\ exec s1 p t' s'.
Proof.
  remember (WaitLast :: p) as q eqn:Eq. induction 1; try discriminate.
  - destruct (IHexec Eq) as (d & s1 & t' & H1 & -> & H2 & H3). exists (EEnd c :: d), s1, t'.
    split; [econstructor; eassumption|]. split; [reflexivity|]. split; assumption.
  - injection Eq as ->. exists [], s, t. split; [constructor|]. split; [reflexivity|]. split; assumption.
Qed.
Lemma exec_clock_inv s p t s' : exec s (Clock :: p) t s' ->
  exists d s1 t', dev s d s1 /\ t = d ++ EClock :: t' /\ exec s1 p t' s'.
Proof.
  remember (Clock :: p) as q eqn:Eq. induction 1; try discriminate.
  - destruct (IHexec Eq) as (d & s1 & t' & H1 & -> & H2). exists (EEnd c :: d), s1, t'.
    split; [econstructor; eassumption|]. split; [reflexivity|assumption].
  - injection Eq as ->. exists [], s, t. split; [constructor|]. split; [reflexivity|assumption].
Qed.

Lemma dev_keep s d s' : dev s d s' -> s_cache s' = s_cache s /\ s_next s' = s_next s /\
  (forall c, In c (s_run s') -> In c (s_run s)) /\
  (forall e, In e d -> exists c, e = EEnd c /\ In c (s_run s)) /\
  (forall c, In c (s_run s) -> ~ In c (s_run s') -> In (EEnd c) d).
Proof.
  induction 1 as [s|s c t s' Hc Hd (E1 & E2 & E3 & E4 & E5)].
  - repeat split; try tauto. intros e [].
  - cbn in *. split; [exact E1|]. split; [exact E2|]. split; [|split].
    + intros x Hx. apply E3 in Hx. apply in_remove in Hx. tauto.
    + intros e [<-|He]; [exists c; tauto|]. destruct (E4 e He) as (x & -> & Hx). exists x. split; [reflexivity|].
      apply in_remove in Hx. tauto.
    + intros x Hx Hn. destruct (Nat.eq_dec x c) as [->|Hxc]; [left; reflexivity|]. right.
      apply E5; [|exact Hn]. apply in_in_remove; assumption.
Qed.
Lemma dev_wf s d s' : wf s -> dev s d s' -> wf s'.
Proof.
  intros Hw Hd. destruct (dev_keep s d s' Hd) as (_ & E2 & E3 & _). intros c Hc. rewrite E2. apply Hw, E3, Hc.
Qed.
Lemma call_wf s k : wf s -> wf (snd (call s k)).
Proof. intros Hw c [<-|Hc]; cbn; [lia|]. apply Hw in Hc. lia. Qed.
Lemma dev_noclock s d s' : dev s d s' -> ~ In EClock d.
Proof. intros Hd Hi. destruct (dev_keep s d s' Hd) as (_ & _ & _ & E4 & _). destruct (E4 _ Hi) as (c & E & _). discriminate. Qed.
Lemma dev_nocompile s d s' k : dev s d s' -> ~ In (ECompile k) d.
Proof. intros Hd Hi. destruct (dev_keep s d s' Hd) as (_ & _ & _ & E4 & _). destruct (E4 _ Hi) as (c & E & _). discriminate. Qed.
Lemma dev_nostart s d s' c : dev s d s' -> ~ In (EStart c) d.
Proof. intros Hd Hi. destruct (dev_keep s d s' Hd) as (_ & _ & _ & E4 & _). destruct (E4 _ Hi) as (x & E & _). discriminate. Qed.
Lemma call_noclock s k : ~ In EClock (fst (call s k)).
Proof. unfold call. destruct existsb; cbn; intuition discriminate. Qed.
Lemma call_hit s k : In k (s_cache s) -> fst (call s k) = [EStart (s_next s)].
Proof.
  intros H. unfold call. replace (existsb (Nat.eqb k) (s_cache s)) with true; [reflexivity|].
  symmetry. apply existsb_exists. exists k. split; [exact H|apply Nat.eqb_refl].
Qed.
Lemma call_shape s k : exists pre, fst (call s k) = pre ++ [EStart (s_next s)] /\
  (forall e, In e pre -> e = ECompile k /\ ~ In k (s_cache s)).
Proof.
  unfold call. destruct (existsb (Nat.eqb k) (s_cache s)) eqn:E; cbn.
  - exists []. split; [reflexivity|intros e []].
  - exists [ECompile k]. split; [reflexivity|]. intros e [<-|[]]. split; [reflexivity|]. intros Hi.
    apply not_true_iff_false in E. apply E, existsb_exists. exists k. split; [exact Hi|apply Nat.eqb_refl].
Qed.

(** the measured part of a run: clock, call, wait, clock *)
Lemma timed_part s k t s' : wf s ->
  exec s [Clock; Call k; WaitLast; Clock] t s' ->
  exists d mid post, t = d ++ EClock :: mid ++ EClock :: post /\
    ~ In EClock d /\ ~ In EClock mid /\ ~ In EClock post /\
    wf s' /\ s_cache s' = k :: s_cache s /\ s_next s' = S (s_next s) /\
    (forall n0, (forall c, n0 <= c -> ~ In c (s_run s)) -> covers n0 mid s') /\
    (In k (s_cache s) -> no_compile mid) /\
    (~ In k (s_cache s) -> In (ECompile k) mid).
Proof.
  intros Hw H.
  destruct (exec_clock_inv _ _ _ _ H) as (d1 & s1 & t1 & D1 & -> & H1).
  destruct (exec_call_inv _ _ _ _ _ H1) as (d2 & s2 & t2 & D2 & -> & H2).
  destruct (exec_wait_inv _ _ _ _ H2) as (d3 & s3 & t3 & D3 & -> & W3 & H3).
  destruct (exec_clock_inv _ _ _ _ H3) as (d4 & s4 & t4 & D4 & -> & H4).
  pose proof (exec_nil _ _ _ H4) as D5.
  pose proof (dev_wf _ _ _ Hw D1) as Hw1. pose proof (dev_wf _ _ _ Hw1 D2) as Hw2.
  pose proof (dev_wf _ _ _ (call_wf _ k Hw2) D3) as Hw3. pose proof (dev_wf _ _ _ Hw3 D4) as Hw4.
  pose proof (dev_wf _ _ _ Hw4 D5) as Hw5.
  destruct (dev_keep _ _ _ D1) as (A1 & B1 & C1 & P1 & Q1). destruct (dev_keep _ _ _ D2) as (A2 & B2 & C2 & P2 & Q2).
  destruct (dev_keep _ _ _ D3) as (A3 & B3 & C3 & P3 & Q3). destruct (dev_keep _ _ _ D4) as (A4 & B4 & C4 & P4 & Q4).
  destruct (dev_keep _ _ _ D5) as (A5 & B5 & C5 & P5 & Q5). cbn [call snd s_cache s_next s_run] in A3, B3, C3, P3, Q3.
  destruct (call_shape s2 k) as (pre & Epre & Hpre).
  exists d1, (d2 ++ fst (call s2 k) ++ d3 ++ d4), t4.
  split. { rewrite <- !app_assoc. reflexivity. }
  split; [eapply dev_noclock, D1|].
  split. { rewrite !in_app_iff. intros [Hi|[Hi|[Hi|Hi]]].
    - exact (dev_noclock _ _ _ D2 Hi). - exact (call_noclock _ _ Hi).
    - exact (dev_noclock _ _ _ D3 Hi). - exact (dev_noclock _ _ _ D4 Hi). }
  split; [eapply dev_noclock, D5|]. split; [exact Hw5|]. split; [congruence|]. split; [congruence|].
  assert (N2 : s_next s2 = s_next s) by congruence.
  assert (K2 : s_cache s2 = s_cache s) by congruence.
  split; [|split].
  - intros n0 Hn0. exists (s_next s2). split; [congruence|]. split; [|split].
    + assert (Hin : In (EEnd (s_next s2)) d3).
      { apply Q3; [left; reflexivity|]. apply W3. rewrite B3. reflexivity. }
      apply in_split in Hin. destruct Hin as (x & y & ->).
      exists (d2 ++ pre), x, (y ++ d4). rewrite Epre. repeat (cbn; rewrite <- ?app_assoc). reflexivity.
    + intros c'. rewrite Epre, !in_app_iff. intros [Hi|[[Hi|[Hi|[]]]|[Hi|Hi]]].
      * destruct (dev_nostart _ _ _ _ D2 Hi).
      * apply Hpre in Hi. destruct Hi as [Hi _]. discriminate.
      * injection Hi as <-. reflexivity.
      * destruct (dev_nostart _ _ _ _ D3 Hi).
      * destruct (dev_nostart _ _ _ _ D4 Hi).
    + intros c' Hc'. rewrite Epre, !in_app_iff. intros [Hi|[[Hi|[Hi|[]]]|[Hi|Hi]]].
      * destruct (P2 _ Hi) as (x & Ex & Hx). injection Ex as <-. destruct (Hn0 c' Hc'). apply C1, Hx.
      * apply Hpre in Hi. destruct Hi as [Hi _]. discriminate.
      * discriminate.
      * destruct (P3 _ Hi) as (x & Ex & Hx). injection Ex as <-. destruct Hx as [Hx|Hx]; [symmetry; exact Hx|].
        destruct (Hn0 c' Hc'). apply C1, C2, Hx.
      * destruct (P4 _ Hi) as (x & Ex & Hx). injection Ex as <-. destruct (C3 _ Hx) as [Hx'|Hx'].
        -- symmetry; exact Hx'. -- destruct (Hn0 c' Hc'). apply C1, C2, Hx'.
  - intros Hk x. rewrite call_hit by congruence. rewrite !in_app_iff. intros [Hi|[[Hi|[]]|[Hi|Hi]]].
    + exact (dev_nocompile _ _ _ _ D2 Hi). + discriminate.
    + exact (dev_nocompile _ _ _ _ D3 Hi). + exact (dev_nocompile _ _ _ _ D4 Hi).
  - intros Hk. apply in_or_app. right. apply in_or_app. left. unfold call.
    destruct (existsb (Nat.eqb k) (s_cache s2)) eqn:Ee; [|left; reflexivity].
    apply existsb_exists in Ee. destruct Ee as (y & Hy & Ey). apply Nat.eqb_eq in Ey. subst y. destruct Hk. rewrite <- K2. exact Hy.
Qed.

(** the warm-up *)
Lemma warm_part s k p t s' : wf s -> exec s (Call k :: WaitLast :: p) t s' ->
  exists d t' s1, t = d ++ t' /\ ~ In EClock d /\ wf s1 /\ s_cache s1 = k :: s_cache s /\ s_next s1 = S (s_next s) /\
    (forall c, s_next s <= c -> ~ In c (s_run s1)) /\ exec s1 p t' s'.
Proof.
  intros Hw H. destruct (exec_call_inv _ _ _ _ _ H) as (d1 & s1 & t1 & D1 & -> & H1).
  destruct (exec_wait_inv _ _ _ _ H1) as (d2 & s2 & t2 & D2 & -> & W2 & H2).
  pose proof (dev_wf _ _ _ Hw D1) as Hw1. pose proof (dev_wf _ _ _ (call_wf _ k Hw1) D2) as Hw2.
  destruct (dev_keep _ _ _ D1) as (A1 & B1 & C1 & _ & _). destruct (dev_keep _ _ _ D2) as (A2 & B2 & C2 & _ & _).
  cbn [call snd s_cache s_next s_run] in A2, B2, C2.
  exists (d1 ++ fst (call s1 k) ++ d2), t2, s2. split; [rewrite <- !app_assoc; reflexivity|].
  split. { rewrite !in_app_iff. intros [Hi|[Hi|Hi]].
    - exact (dev_noclock _ _ _ D1 Hi). - exact (call_noclock _ _ Hi). - exact (dev_noclock _ _ _ D2 Hi). }
  split; [exact Hw2|]. split; [congruence|]. split; [congruence|]. split; [|exact H2].
  intros c Hc Hi. destruct (C2 _ Hi) as [Hx|Hx].
  - apply (W2 c); [congruence|exact Hi].
  - apply C1 in Hx. apply Hw in Hx. lia.
Qed.

Lemma timed_run s b k t s' : wf s -> exec s (run_timed b k) t s' ->
  exists mid, measured t mid /\ covers (s_next s) mid s' /\ wf s' /\
    (forall x, In x (s_cache s') <-> x = k \/ In x (s_cache s)) /\
    ((b = false \/ In k (s_cache s)) -> no_compile mid) /\
    (b = true -> ~ In k (s_cache s) -> In (ECompile k) mid).
Proof.
  intros Hw H. destruct b.
  - change (run_timed true k) with [Clock; Call k; WaitLast; Clock] in H.
    assert (Hc : forall c, s_next s <= c -> ~ In c (s_run s)) by (intros c Hc Hi; apply Hw in Hi; lia).
    destruct (timed_part s k t s' Hw H) as (d & mid & post & E & N1 & N2 & N3 & W & C & _ & Cov & NC & YC).
    exists mid. split; [exists d, post; tauto|]. split; [apply Cov, Hc|]. split; [exact W|].
    split; [rewrite C; intros x; cbn; intuition congruence|].
    split; [intros [Hb|Hb]; [discriminate|apply NC, Hb]|intros _; exact YC].
  - change (run_timed false k) with [Call k; WaitLast; Clock; Call k; WaitLast; Clock] in H.
    destruct (warm_part s k _ t s' Hw H) as (d0 & t' & s1 & -> & N0 & W1 & C1 & X1 & F1 & H1).
    destruct (timed_part s1 k t' s' W1 H1) as (d & mid & post & -> & N1 & N2 & N3 & W & C & _ & Cov & NC & _).
    exists mid. split; [exists (d0 ++ d), post; rewrite in_app_iff, <- app_assoc; tauto|].
    split; [apply Cov, F1|]. split; [exact W|].
    split; [rewrite C, C1; intros x; cbn; intuition congruence|].
    split; [intros _; apply NC; rewrite C1; left; reflexivity|discriminate].
Qed.

(** same signature in every run: once a run has been made, the signature is compiled *)
Lemma same_sig c k : forall l b s ts, wf s -> (b = true -> In k (s_cache s)) ->
  (forall tm x, In (tm, x) l -> x = k) -> runs c b s l ts ->
  forall i t x, nth_error ts i = Some t -> nth_error l i = Some (true, x) ->
  forall mid, measured t mid -> no_compile mid.
Proof.
  intros l b s ts Hw Hb Hl H. revert Hw Hb Hl. induction H as [b s|b s tm k' l t s' ts Hx Hr IH]; intros Hw Hb Hl i t0 x Ht Hx0.
  - destruct i; discriminate.
  - assert (k' = k) by (apply (Hl tm); left; reflexivity). subst k'.
    assert (G : wf s' /\ (run_flag c tm b = true -> In k (s_cache s')) /\
      (tm = true -> forall mid, measured t mid -> no_compile mid)).
    { destruct tm; cbn [run_prog run_flag] in *.
      - destruct (timed_run s b k t s' Hw Hx) as (mid & M & _ & W & C & NC & _).
        split; [exact W|]. split; [intros _; apply C; left; reflexivity|].
        intros _ mid' M'. assert (mid' = mid).
        { destruct M as (p1 & q1 & -> & A1 & A2 & A3). destruct M' as (p2 & q2 & E & B1 & B2 & B3).
          assert (U : forall (p p' r r' : list event), ~ In EClock p -> ~ In EClock p' -> p ++ EClock :: r = p' ++ EClock :: r' -> p = p' /\ r = r').
          { clear. induction p as [|a p IH]; intros [|a' p'] r r' H H' E; cbn in E; [injection E as E2|injection E as E1 E2..].
            - split; [reflexivity|exact E2]. - subst a'. destruct H'. left. reflexivity.
            - subst a. destruct H. left. reflexivity.
            - subst a'. destruct (IH p' r r') as [-> ->]; [intros Hi; apply H; right; exact Hi|intros Hi; apply H'; right; exact Hi|exact E2|].
              split; reflexivity. }
          destruct (U _ _ _ _ A1 B1 E) as [_ E']. destruct (U _ _ _ _ A2 B2 E') as [E'' _]. symmetry. exact E''. }
        subst mid'. apply NC. destruct b; [right; apply Hb; reflexivity|left; reflexivity].
      - split; [|split; [|discriminate]].
        + destruct c.
          * apply exec_nil in Hx. eapply dev_wf; eassumption.
          * destruct (exec_call_inv _ _ _ _ _ Hx) as (d & s1 & t' & D & _ & Hx').
            apply exec_nil in Hx'. eapply dev_wf; [|exact Hx']. apply call_wf. eapply dev_wf; eassumption.
        + destruct c; intros Hf.
          * apply exec_nil in Hx. destruct (dev_keep _ _ _ Hx) as (E & _). rewrite E. apply Hb, Hf.
          * destruct (exec_call_inv _ _ _ _ _ Hx) as (d & s1 & t' & D & _ & Hx').
            apply exec_nil in Hx'. destruct (dev_keep _ _ _ Hx') as (E & _). rewrite E. left. reflexivity. }
    destruct G as (G1 & G2 & G3). destruct i as [|i]; cbn in Ht, Hx0.
    + injection Ht as <-. injection Hx0 as -> <-. apply G3. reflexivity.
    + apply (IH G1 G2 (fun tm x Hi => Hl tm x (or_intror Hi)) i t0 x Ht Hx0).
Qed.
