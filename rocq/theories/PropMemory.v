(** C76: memory of the C++ classes. *)
From Coq Require Import List Arith Bool Lia Permutation.
From Verif Require Import Base ModelRegistry ModelMemory SpecMemory ProofMemory.
Import ListNotations.

Lemma held_keeps s i : held s i <-> existsb (keeps i) (s_vars s) = true.
Proof. unfold held. rewrite keeps_in. reflexivity. Qed.
Lemma inv_reach es s : prun pinit es = Some s -> inv s /\ map p_cls (s_objs s) = flat_map new_cls es.
Proof. intros H. exact (inv_run es pinit s inv_init H). Qed.
Lemma arrs_blocks vars : arrs vars = array_blocks vars.
Proof. induction vars as [|[] r IH]; cbn; rewrite <- ?IH; reflexivity. Qed.
Lemma made_cls es : flat_map new_cls es = made es.
Proof. induction es as [|[] es IH]; cbn; rewrite <- ?IH; reflexivity. Qed.

(** No history of constructions, calls, copies and releases uses memory that is not there, releases anything
    twice or by the wrong function.  Missing: compiled calls with the identifier of an object that is gone. *)
Theorem C76_safe_partial : forall es s e, prun pinit es = Some s ->
  (forall N d n full, e = EXla N d n full -> held s N) -> exists s', pstep s e = Some s'.
Proof.
  intros es s e H HX. destruct (inv_reach es s H) as [I _]. destruct (inv_step s e I) as (s' & E & _); [|eauto].
  intros N d n full He. apply held_keeps, (HX N d n full He).
Qed.
Print Assumptions C76_safe_partial.
Theorem C76_xla_iff : forall es s N d n full, prun pinit es = Some s ->
  (pstep s (EXla N d n full) <> None <-> held s N).
Proof.
  intros es s N d n full H. destruct (inv_reach es s H) as [I _]. rewrite held_keeps. split.
  - intros Hn. destruct (existsb (keeps N) (s_vars s)) eqn:K; [reflexivity|]. exfalso. apply Hn, xla_undefined; assumption.
  - intros K. destruct (inv_xla s N d n full I K) as (s' & E & _). rewrite E. discriminate.
Qed.
Print Assumptions C76_xla_iff.
(** the identifier of an object whose variables are all gone *)
Theorem C76_dangling_refuted : forall k dim numC m num numFull d n full, exists s,
  prun pinit [ENew k dim numC m num numFull; ERelease 0] = Some s /\ pstep s (EXla 0 d n full) = None.
Proof.
  intros k dim numC m num numFull d n full. destruct (inv_step pinit (ENew k dim numC m num numFull) inv_init) as (s1 & E1 & I1 & _); [discriminate|].
  destruct (inv_step s1 (ERelease 0) I1) as (s2 & E2 & I2 & _); [discriminate|]. exists s2.
  assert (prun pinit [ENew k dim numC m num numFull; ERelease 0] = Some s2) as HR by (cbn [prun]; rewrite E1; cbn [bind]; rewrite E2; reflexivity).
  split; [exact HR|]. apply xla_undefined; [exact I2|].
  cbn [pstep] in E1. destruct (construct _ _ _ _ _ _ _) as [[m' o]|]; [|discriminate]. injection E1 as <-. cbn [pstep s_vars s_objs pinit app nth_error length drop_nth] in E2.
  destruct (release _ _ _ _) as [[m2 u]|]; [|discriminate]. injection E2 as <-. reflexivity.
Qed.
Print Assumptions C76_dangling_refuted.

(** At any time the blocks from [malloc] are those of the array variables, one each. *)
Lemma filter_kind k l : Forall (fun b => k_kind b = k) l -> filter (fun b => kind_eqb (k_kind b) k) l = l.
Proof. induction 1 as [|b l H _ IH]; cbn; [reflexivity|]. rewrite H, kind_eqb_refl, IH. reflexivity. Qed.
Lemma parts_malloc v objs : forall n, filter (fun b => kind_eqb (k_kind b) AMalloc) (parts v n objs) = [].
Proof.
  induction objs as [|o r IH]; intros n; cbn; [reflexivity|]. rewrite filter_app, IH, app_nil_r. unfold part, own_live, own_dead.
  destruct (existsb _ _), (is_nd (p_cls o)), (is_elm (p_cls o)); reflexivity.
Qed.
Theorem C76_arrays : forall es s, prun pinit es = Some s ->
  NoDup (array_blocks (s_vars s)) /\ Permutation (blocks_of AMalloc s) (array_blocks (s_vars s)).
Proof.
  intros es s H. destruct (inv_reach es s H) as [I _]. destruct (i_mem s I) as (ab & E1 & F1 & HP).
  assert (Permutation (blocks_of AMalloc s) (array_blocks (s_vars s))) as HB.
  { unfold blocks_of. rewrite (filter_perm _ _ _ HP), filter_app, parts_malloc, (filter_kind AMalloc ab F1), <- arrs_blocks, <- E1. reflexivity. }
  split; [|exact HB]. apply (Permutation_NoDup HB). unfold blocks_of. destruct (i_wf s I) as [N _].
  clear - N. induction (live (s_mem s)) as [|b l IH]; cbn; [constructor|]. cbn in N. inversion N as [|x y Hx Hl]; subst.
  destruct (kind_eqb _ _); cbn; [|auto]. constructor; [|auto]. intros Hi. apply Hx. apply in_map_iff in Hi as (b' & E & Hb). apply filter_In in Hb as [Hb _]. apply in_map_iff. eauto.
Qed.
Print Assumptions C76_arrays.
(** an object exists as long as something refers to it *)
Theorem C76_objects : forall es s i o, prun pinit es = Some s -> nth_error (s_objs s) i = Some o ->
  (In (p_self o) (map k_id (live (s_mem s))) <-> held s i).
Proof.
  intros es s i o H Eo. destruct (inv_reach es s H) as [I _]. rewrite held_keeps. destruct (existsb (keeps i) (s_vars s)) eqn:K.
  - destruct (inv_obj s i o I Eo K) as (R & HR & _). split; [reflexivity|]. intros _. apply (has_perm _ _ _ (Permutation_sym HR)). left. reflexivity.
  - destruct (i_self s I i o Eo) as [_ D]. split; [intros Hi; destruct (D K Hi)|discriminate].
Qed.
Print Assumptions C76_objects.
(** calls leave nothing behind but the returned array *)
Theorem C76_temporaries : forall es s N d n full s', prun pinit es = Some s ->
  (pstep s (EXla N d n full) = Some s' -> Permutation (live (s_mem s')) (live (s_mem s))) /\
  (pstep s (EH N d n full) = Some s' -> s' = s \/ exists F sz,
     s_vars s' = s_vars s ++ [HArr F] /\ Permutation (live (s_mem s')) (Block F AMalloc sz :: live (s_mem s))).
Proof.
  intros es s N d n full s' H. destruct (inv_reach es s H) as [I _]. split.
  - intros E. destruct (existsb (keeps N) (s_vars s)) eqn:K; [|rewrite (xla_undefined s N d n full I K) in E; discriminate].
    destruct (inv_xla s N d n full I K) as (s2 & E2 & _ & _ & _ & HP). rewrite E in E2. injection E2 as <-. exact HP.
  - cbn [pstep]. unfold on_obj. destruct (nth_error (s_vars s) N) as [[i|a|i|i]|] eqn:Ej; try (intros [= <-]; auto).
    destruct (nth_error (s_objs s) i) as [o|] eqn:Eo; [|intros [= <-]; auto]. intros E. right.
    destruct (inv_obj s i o I Eo) as (R & HR & _); [apply keeps_in; left; apply (nth_error_In _ _ Ej)|].
    destruct (t_H o d n full (own_live o ++ R) (ho_own o R) (s_mem s) [] (i_wf s I)) as (m' & F & EF & _ & HP); [rewrite app_nil_r; exact HR|].
    unfold seqc in E. rewrite EF in E. cbn in E. injection E as <-. exists F, (h_size o n full). split; [reflexivity|]. cbn. rewrite HP, HR, app_nil_r. reflexivity.
Qed.
Print Assumptions C76_temporaries.

(** When no variable is left: the capsule of every object that was ever made, and [x0] of the n-dimensional ones. *)
Lemma parts_dead objs : forall n, parts [] n objs = flat_map own_dead objs.
Proof. induction objs as [|o r IH]; intros n; cbn; [reflexivity|]. rewrite IH. reflexivity. Qed.
Lemma dead_live s : inv s -> s_vars s = [] -> Permutation (live (s_mem s)) (flat_map own_dead (s_objs s)).
Proof.
  intros I E. destruct (i_mem s I) as (ab & E1 & _ & HP). rewrite E in *. destruct ab; [|discriminate]. rewrite app_nil_r, parts_dead in HP. exact HP.
Qed.
Lemma dead_count objs : let l := flat_map own_dead objs in
  filter (fun b => kind_eqb (k_kind b) AObj) l = [] /\ filter (fun b => kind_eqb (k_kind b) AMalloc) l = [] /\
  length (filter (fun b => kind_eqb (k_kind b) APy) l) = length objs /\
  list_sum (map k_size (filter (fun b => kind_eqb (k_kind b) ANew) l)) = nd_dims objs /\
  length (filter (fun b => kind_eqb (k_kind b) ANew) l) = length (filter is_nd (map p_cls objs)).
Proof.
  induction objs as [|o r (I1 & I2 & I3 & I4 & I5)]; [repeat split|]. cbn zeta in *. cbn [flat_map map]. rewrite !filter_app, I1, I2.
  unfold nd_dims, list_sum in *. unfold own_dead. cbn [map filter fold_right]. destruct (is_nd (p_cls o)) eqn:E; cbn in *; rewrite ?E; cbn; repeat split; try assumption; try (f_equal; assumption).
Qed.
Lemma list_sum_perm l l' : Permutation l l' -> list_sum l = list_sum l'.
Proof. unfold list_sum. induction 1; cbn in *; lia. Qed.
Theorem C76_released_partial : forall es s, prun pinit es = Some s -> s_vars s = [] ->
  blocks_of AMalloc s = [] /\ blocks_of AObj s = [] /\ length (blocks_of APy s) = length (made es) /\
  length (blocks_of ANew s) = length (filter is_nd (made es)) /\ cells ANew s = nd_dims (s_objs s).
Proof.
  intros es s H E. destruct (inv_reach es s H) as [I C]. pose proof (dead_live s I E) as HP. rewrite made_cls in C.
  destruct (dead_count (s_objs s)) as (D1 & D2 & D3 & D4 & D5). unfold blocks_of, cells. rewrite !map_length.
  assert (forall k, Permutation (filter (fun b => kind_eqb (k_kind b) k) (live (s_mem s))) (filter (fun b => kind_eqb (k_kind b) k) (flat_map own_dead (s_objs s)))) as HF
    by (intros k; apply filter_perm, HP).
  split; [|split; [|split; [|split]]].
  - pose proof (HF AMalloc) as P. rewrite D2 in P. apply Permutation_sym, Permutation_nil in P. rewrite P. reflexivity.
  - pose proof (HF AObj) as P. rewrite D1 in P. apply Permutation_sym, Permutation_nil in P. rewrite P. reflexivity.
  - rewrite (Permutation_length (HF APy)), D3, <- C, map_length. reflexivity.
  - rewrite (Permutation_length (HF ANew)), D5, C. reflexivity.
  - rewrite (list_sum_perm _ _ (Permutation_map k_size (HF ANew))). exact D4.
Qed.
Print Assumptions C76_released_partial.

(** "Nothing is left" is false: making and releasing objects, every n-dimensional object leaves an array of
    [dim] doubles and every object its capsule, without bound. *)
Theorem C76_leak_refuted : forall k dim N, is_nd k = true -> exists es s,
  prun pinit es = Some s /\ s_vars s = [] /\ cells ANew s = N * dim /\ length (blocks_of APy s) = N.
Proof.
  intros k dim N Hk.
  assert (exists es s, prun pinit es = Some s /\ s_vars s = [] /\ nd_dims (s_objs s) = N * dim /\ length (made es) = N) as (es & s & H1 & H2 & H3 & H4).
  2:{ exists es, s. destruct (C76_released_partial es s H1 H2) as (_ & _ & P & _ & Q). rewrite Q, P. auto. }
  induction N as [|N (es & s & H1 & H2 & H3 & H4)]; [exists [], pinit; repeat split|].
  destruct (inv_reach es s H1) as [I _]. destruct (inv_new s k dim 1 3 4 6 I) as (m1 & o & E1 & Hc & Hd & I1).
  destruct (inv_release (PState m1 (s_objs s ++ [o]) (s_vars s ++ [HObj (length (s_objs s))])) [] [] (HObj (length (s_objs s))) I1) as (m2 & E2 & I2); [cbn; rewrite H2; reflexivity|].
  cbn [s_objs s_mem app] in E2, I2.
  exists (es ++ [ENew k dim 1 3 4 6; ERelease 0]), (PState m2 (s_objs s ++ [o]) []). split; [|split; [|split]].
  - assert (forall es' s0, prun s0 (es ++ es') = match prun s0 es with Some s1 => prun s1 es' | None => None end) as Hr.
    { clear. induction es as [|e es IH]; intros es' s0; [reflexivity|]. cbn. destruct (pstep s0 e); cbn; [apply IH|reflexivity]. }
    rewrite Hr, H1. cbn [prun pstep]. rewrite E1. cbn [bind pstep s_vars s_objs s_mem]. rewrite H2. cbn [app nth_error drop_nth]. rewrite E2. reflexivity.
  - reflexivity.
  - unfold nd_dims in *. cbn. rewrite map_app, list_sum_app. cbn. rewrite Hc, Hk, Hd. unfold list_sum in *. cbn in *. lia.
  - assert (forall a b, made (a ++ b) = made a ++ made b) as Ha by (clear; intros a b; induction a as [|[] a IH]; cbn; rewrite ?IH; reflexivity).
    rewrite Ha, app_length, H4. cbn. lia.
Qed.
Print Assumptions C76_leak_refuted.

(** One nELMSwish object: matrix, weights and a view of [c], the object variable released first; then everything. *)
Example C76_case : exists s s',
  prun pinit [ENew KnELMSwish 2 1 5 4 5; EH 0 [1; 0] 3 false; EW 0; EC 0; EXla 0 [0; 0] 3 true; ERelease 0; ERead 2; EXla 0 [0; 0] 3 true] = Some s /\
  blocks_of AMalloc s = [12; 7] /\ s_vars s = [HArr 7; HArr 12; HView 0] /\ cells ANew s = 21 /\
  prun s [ERelease 2; ERelease 0; ERelease 0] = Some s' /\ s_vars s' = [] /\ live (s_mem s') = [Block 4 APy 1; Block 1 ANew 2].
Proof. eexists _, _. split; [vm_compute; reflexivity|]. do 3 (split; [reflexivity|]). split; [vm_compute; reflexivity|]. split; reflexivity. Qed.
