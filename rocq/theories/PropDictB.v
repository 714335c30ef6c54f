(** C93, C94: dictionary arithmetic with broadcasting and with operations that raise; what [update]
    and [block_until_ready] do. *)
From Coq Require Import List Arith Bool ZArith Lia.
From Verif Require Import Base ModelDict SpecDict ProofDict ProofDict2 ProofDict3 SpecDictB ModelDictUp ProofDictB.
Import ListNotations.

(** ** C93 *)
(** [d += o] for dictionaries in which no NumPy array meets a NumPy array: the entries are combined in
    order, each as a broadcast result, up to the first key that [o] does not have or whose arrays do not
    fit; there the call raises, and the earlier entries stay changed. *)
Theorem C93_in_place : forall (T K : Type) (keq : K -> K -> bool) f (h : @heap T) d o h' d' r,
  keq_ok keq -> fresh d_refresh h d -> NoDup (map fst o) -> filled h (td_items d) -> filled h o -> no_clash (td_items d) o ->
  d_iop keq f h d (ODict o) = (h', d', r) ->
  h' = h /\ td_keys d' = td_keys d /\ td_slices d' = td_slices d /\
  exists done rest done', td_items d = done ++ rest /\ td_items d' = done' ++ rest /\
    Forall2 (fun p p' => fst p' = fst p /\ exists c, snd p' = Jax c /\ combines f h o p c) done done' /\
    (r = Done <-> rest = []) /\ (forall p rest', rest = p :: rest' -> forall c, ~ combines f h o p c).
Proof.
  intros T K keq f h d o h' d' r Hk [Hn Hr] Ho Fd Fo Hc E. unfold d_iop in E. cbn [d_arith] in E.
  destruct (d_refresh_items _ _ _ Hr) as [_ Kd]. rewrite Kd in E.
  destruct (aug_dict keq f h (td_items d) (map fst (td_items d)) o) as [[h1 it] r1] eqn:Ea. injection E as <- <- <-.
  destruct (loop_char keq Hk f h o Ho Fo (td_items d) [] h1 it r1 Hn Fd Hc Ea) as [-> (done & rest & done' & H1 & H2 & H3)].
  split; [reflexivity|]. split; [cbn; symmetry; exact Kd|]. split; [reflexivity|]. exists done, rest, done'. cbn [td_items]. auto.
Qed.
Print Assumptions C93_in_place.
Theorem C93_robust_in_place : forall (T K : Type) (keq : K -> K -> bool) f (h : @heap T) d o h' d' r,
  keq_ok keq -> fresh r_refresh h d -> NoDup (map fst o) -> filled h (td_items d) -> filled h o -> no_clash (td_items d) o ->
  r_iop keq f h d (ODict o) = (h', d', r) ->
  h' = h /\ td_keys d' = td_keys d /\ td_slices d' = td_slices d /\
  exists done rest done', td_items d = done ++ rest /\ td_items d' = done' ++ rest /\
    Forall2 (fun p p' => fst p' = fst p /\ exists c, snd p' = Jax c /\ combines f h o p c) done done' /\
    (r = Done <-> rest = []) /\ (forall p rest', rest = p :: rest' -> forall c, ~ combines f h o p c).
Proof.
  intros T K keq f h d o h' d' r Hk [Hn Hr] Ho Fd Fo Hc E. unfold r_iop in E. cbn [r_arith] in E.
  destruct (r_refresh_items _ _ _ Hr) as [_ Kd]. rewrite Kd in E.
  destruct (aug_dict keq f h (td_items d) (map fst (td_items d)) o) as [[h1 it] r1] eqn:Ea. injection E as <- <- <-.
  destruct (loop_char keq Hk f h o Ho Fo (td_items d) [] h1 it r1 Hn Fd Hc Ea) as [-> (done & rest & done' & H1 & H2 & H3)].
  split; [reflexivity|]. split; [cbn; symmetry; exact Kd|]. split; [reflexivity|]. exists done, rest, done'. cbn [td_items]. auto.
Qed.
Print Assumptions C93_robust_in_place.
(** [d + o] either gives all the broadcast results or raises, and changes nothing. *)
Theorem C93_sum : forall (T K : Type) (keq : K -> K -> bool) f (h : @heap T) d o,
  keq_ok keq -> fresh d_refresh h d -> NoDup (map fst o) -> filled h (td_items d) -> filled h o -> no_clash (td_items d) o ->
  fst (d_op keq f h d (ODict o)) = h /\
  (forall d', snd (d_op keq f h d (ODict o)) = Some d' ->
     Forall2 (fun p p' => fst p' = fst p /\ exists c, snd p' = Jax c /\ combines f h o p c) (td_items d) (td_items d')) /\
  (snd (d_op keq f h d (ODict o)) = None <-> exists p, In p (td_items d) /\ forall c, ~ combines f h o p c).
Proof.
  intros T K keq f h d o Hk Hf Ho Fd Fo Hc.
  destruct (d_iop keq f h d (ODict o)) as [[h' d'] r] eqn:E.
  destruct (C93_in_place T K keq f h d o h' d' r Hk Hf Ho Fd Fo Hc E) as (-> & Ek & Es & done & rest & done' & H1 & H2 & HF & Hr & Hst).
  assert (Eo : d_op keq f h d (ODict o) = (h, match r with Done => Some d' | Raised => None end)).
  { unfold d_op, d_iop in *. rewrite (d_new_self _ Hk _ _ Hf). destruct (d_arith keq f h d d (ODict o)) as [[h1 it] r1].
    injection E as -> <- ->. destruct r; reflexivity. }
  rewrite Eo. cbn [fst snd]. split; [reflexivity|]. destruct r.
  - assert (rest = []) as -> by (apply Hr; reflexivity). rewrite app_nil_r in H1, H2. split.
    + intros d1 [= <-]. rewrite H1, H2. exact HF.
    + split; [discriminate|]. intros (p & Hp & Hno). rewrite H1 in Hp. exfalso.
      destruct (F2_In_l _ _ _ _ HF Hp) as (p' & _ & _ & c & _ & Hcc). exact (Hno c Hcc).
  - split; [discriminate|]. split; [intros _|reflexivity]. destruct rest as [|p rest].
    + exfalso. assert (Raised = Done) by (apply Hr; reflexivity). discriminate.
    + exists p. split; [rewrite H1; apply in_or_app; right; left; reflexivity|]. exact (Hst p rest eq_refl).
Qed.
Print Assumptions C93_sum.
(** What broadcasting asks for determines the result. *)
Theorem C93_unique : forall (T : Type) (f : T -> T -> T) (a b c c' : @arr T), is_bc f a b c -> is_bc f a b c' -> c = c'.
Proof. exact (fun T => @is_bc_unique T). Qed.
Print Assumptions C93_unique.
Local Open Scope Z_scope.
(** An in-place sum that raises is not undone. *)
Theorem C93_atomic_refuted : exists (d d' : @tdict Z Z) o,
  fresh d_refresh [] d /\ NoDup (map fst o) /\ filled [] (td_items d) /\ filled [] o /\ no_clash (td_items d) o /\
  d_iop Z.eqb Z.add [] d (ODict o) = ([], d', Raised) /\ contents [] d' <> contents [] d.
Proof.
  exists (TD [(1, Jax (flat [1; 2])); (2, Jax (flat [3]))] [1; 2] [Some (0, 2)%nat; Some (2, 3)%nat]),
    (TD [(1, Jax (flat [11; 22])); (2, Jax (flat [3]))] [1; 2] [Some (0, 2)%nat; Some (2, 3)%nat]), [(1, Jax (flat [10; 20]))].
  split; [split; [repeat constructor; cbn; intuition discriminate|reflexivity]|].
  split; [repeat constructor; intros []|]. split.
  { intros k v a [[= <- <-]|[[= <- <-]|[]]] [= <-]; reflexivity. }
  split; [intros k v a [[= <- <-]|[]] [= <-]; reflexivity|].
  split; [intros k l l' [[=]|[[=]|[]]]|]. split; [reflexivity|discriminate].
Qed.
Print Assumptions C93_atomic_refuted.
(** A sum that stretches an entry leaves slices of the old lengths: unpacking what was packed loses
    entries. *)
Theorem C93_stretched_refuted : exists (d d' : @tdict Z Z) o c a x,
  fresh d_refresh [] d /\ List.Forall (fun p => exists v, snd p = Jax v /\ is1d v) (td_items d) /\
  d_op Z.eqb Z.add [] d (ODict o) = ([], Some d') /\ contents [] d' = Some c /\ d_toArray [] d' = Some a /\
  d_toDict Z.eqb false [] d' a = ([], Some x) /\ contents [] x <> Some c.
Proof.
  exists (TD [(1, Jax (flat [1])); (2, Jax (flat [3]))] [1; 2] [Some (0, 1)%nat; Some (1, 2)%nat]),
    (TD [(1, Jax (flat [11; 21])); (2, Jax (flat [4]))] [1; 2] [Some (0, 1)%nat; Some (1, 2)%nat]),
    [(1, Jax (flat [10; 20])); (2, Jax (flat [1]))].
  eexists. eexists. eexists. split; [split; [repeat constructor; cbn; intuition discriminate|reflexivity]|].
  split; [repeat constructor; cbn; eexists; split; reflexivity|].
  split; [reflexivity|]. split; [reflexivity|]. split; [reflexivity|]. split; [reflexivity|discriminate].
Qed.
Print Assumptions C93_stretched_refuted.
(** a column and a row, and a number in the operand *)
Example C93_case :
  let d := TD [(1, Jax (Arr_ [2; 1]%nat [1; 2])); (2, Jax (flat [3; 4]))] [1; 2] [Some (0, 2)%nat; Some (2, 4)%nat] in
  let o := [(2, Jax (Arr_ [] [7])); (1, Jax (flat [10; 20; 30]))] in
  fresh d_refresh [] d /\ exists d', d_op Z.eqb Z.add [] d (ODict o) = ([], Some d') /\
  contents [] d' = Some [(1, Arr_ [2; 3]%nat [11; 21; 31; 12; 22; 32]); (2, flat [10; 11])].
Proof. split; [split; [repeat constructor; cbn; intuition discriminate|reflexivity]|]. eexists. split; reflexivity. Qed.

(** ** C94 *)
(** After [update] every key has the value given last, or the value it had; the old keys come first in
    their order, then the new ones in the order in which they first appear.  The same for construction. *)
Theorem C94_update : forall (T K : Type) (keq : K -> K -> bool) (h : @heap T) (d : @tdict T K) l d' r,
  keq_ok keq -> update_run keq h d l = (d', r) ->
  (forall k v, last_for l k v -> od_get keq (td_items d') k = Some v) /\
  (forall k, ~ In k (map fst l) -> od_get keq (td_items d') k = od_get keq (td_items d) k) /\
  (exists new, newcomers (map fst (td_items d)) (map fst l) new /\ map fst (td_items d') = map fst (td_items d) ++ new) /\
  td_keys d' = map fst (td_items d') /\ length (td_slices d') = length (td_items d').
Proof.
  intros T K keq h d l d' r Hk E. unfold update_run in E.
  destruct (getSlices_run h (map snd (od_update keq (td_items d) l))) as [s r'] eqn:Es. injection E as <- <-. cbn [td_items td_keys td_slices].
  split; [intros k v Hl; apply (proj1 (od_update_get keq Hk l (td_items d) k) v Hl)|].
  split; [intros k Hn; apply (proj2 (od_update_get keq Hk l (td_items d) k) Hn)|].
  split; [exact (od_update_keys keq Hk l (td_items d))|]. split; [reflexivity|].
  unfold getSlices_run in Es. destruct (forallb is_arr (map snd (od_update keq (td_items d) l))).
  - pose proof (fill_len h (map snd (od_update keq (td_items d) l)) 0) as Hl. rewrite Es in Hl. cbn in Hl. rewrite Hl, map_length. reflexivity.
  - injection Es as <- _. rewrite repeat_length, map_length. reflexivity.
Qed.
Print Assumptions C94_update.
Theorem C94_construct : forall (T K : Type) (keq : K -> K -> bool) (h : @heap T) l (d : @tdict T K),
  keq_ok keq -> (d_new keq h l = Some d \/ r_new keq h l = Some d) ->
  (forall k v, last_for l k v -> od_get keq (td_items d) k = Some v) /\ newcomers [] (map fst l) (td_keys d) /\
  td_keys d = map fst (td_items d).
Proof.
  intros T K keq h l d Hk H.
  assert (td_items d = od_update keq [] l /\ td_keys d = map fst (od_update keq [] l)) as [E1 E2].
  { destruct H as [H|H]; [apply (d_refresh_items _ _ _ H)|apply (r_refresh_items _ _ _ H)]. }
  rewrite E2, E1. split; [intros k v Hl; apply (proj1 (od_update_get keq Hk l [] k) v Hl)|]. split; [|reflexivity].
  destruct (od_update_keys keq Hk l []) as (r & Hr & ->). exact Hr.
Qed.
Print Assumptions C94_construct.
Theorem C94_robust_update : forall (T K : Type) (keq : K -> K -> bool) (h : @heap T) (d : @tdict T K) l,
  keq_ok keq -> exists d', r_update keq h d l = Some d' /\
  (forall k v, last_for l k v -> od_get keq (td_items d') k = Some v) /\
  (forall k, ~ In k (map fst l) -> od_get keq (td_items d') k = od_get keq (td_items d) k) /\
  (exists new, newcomers (map fst (td_items d)) (map fst l) new /\ map fst (td_items d') = map fst (td_items d) ++ new) /\
  td_keys d' = map fst (td_items d').
Proof.
  intros T K keq h d l Hk. unfold r_update. destruct (r_refresh_total h (od_update keq (td_items d) l)) as (s & E).
  eexists. split; [exact E|]. cbn [td_items td_keys].
  split; [intros k v Hl; apply (proj1 (od_update_get keq Hk l (td_items d) k) v Hl)|].
  split; [intros k Hn; apply (proj2 (od_update_get keq Hk l (td_items d) k) Hn)|].
  split; [exact (od_update_keys keq Hk l (td_items d))|reflexivity].
Qed.
Print Assumptions C94_robust_update.
(** A TFCDict [update] raises exactly when all values are arrays and one has no dimension.  It is not
    undone, and the slices of the failing key and all after it are empty. *)
Theorem C94_raising_update_refuted : forall (T K : Type) (keq : K -> K -> bool) (h : @heap T) (d : @tdict T K) l d',
  keq_ok keq -> fresh d_refresh h d -> update_run keq h d l = (d', Raised) ->
  td_items d' <> td_items d /\
  exists k v, In (k, v) (td_items d') /\ (forall a, ld h v = Some a -> a_shape a = []) /\
    forall a x, d_toDict keq false h d' a = (h, Some x) -> od_get keq (td_items x) k = Some (Jax (flat [])).
Proof.
  intros T K keq h d l d' Hk [Hn Hr] E. split.
  { intros Ei. assert (d_update keq h d l = None) as En.
    { destruct (d_update keq h d l) as [x|] eqn:Ex; [|reflexivity]. apply update_run_done in Ex. rewrite E in Ex. discriminate. }
    unfold d_update in En. assert (td_items d' = od_update keq (td_items d) l) as Ei'.
    { unfold update_run in E. destruct (getSlices_run h (map snd (od_update keq (td_items d) l))). injection E as <- _. reflexivity. }
    rewrite <- Ei', Ei in En. congruence. }
  unfold update_run, getSlices_run in E. pose proof (od_update_NoDup keq Hk l (td_items d) Hn) as Hnd.
  set (it := od_update keq (td_items d) l) in *. destruct (forallb is_arr (map snd it)); [|discriminate].
  pose proof (fill_tail h (map snd it) 0) as Ht. pose proof (fill_len h (map snd it) 0) as Hl.
  destruct (fill h 0 (map snd it)) as [s r]. injection E as <- ->. cbn [fst snd] in *.
  destruct (Ht eq_refl) as (n & Hlt & Hsk & v & Hv & Hlen). rewrite map_length in *. rewrite nth_error_map in Hv.
  destruct (nth_error it n) as [[k v']|] eqn:Eit; [|discriminate]. cbn in Hv. injection Hv as ->. cbn [td_items].
  exists k, v. split; [exact (nth_error_In _ _ Eit)|]. split.
  { intros a La. unfold len0 in Hlen. rewrite La in Hlen. cbn in Hlen. destruct (a_shape a); [reflexivity|discriminate]. }
  intros a x Ex. unfold d_toDict in Ex. cbn [alloc td_slices td_keys] in Ex. injection Ex as Ex.
  destruct (d_refresh_items _ _ _ Ex) as [-> _].
  rewrite od_init by (exact Hk || (rewrite map_fst_combine by (rewrite !map_length; congruence); exact Hnd)).
  apply (In_od_get _ Hk); [rewrite map_fst_combine by (rewrite !map_length; congruence); exact Hnd|].
  assert (nth_error s n = Some (Some (0, 0)%nat)) as Es.
  { rewrite <- (Nat.add_0_r n) at 1. rewrite <- nth_error_skipn, Hsk. destruct (length it - n)%nat eqn:En; [lia|reflexivity]. }
  apply (nth_error_In _ n). apply nth_error_combine.
  - rewrite nth_error_map, Eit. reflexivity.
  - rewrite nth_error_map, nth_error_map, Es. reflexivity.
Qed.
Print Assumptions C94_raising_update_refuted.
(** [block_until_ready] returns the dictionary exactly when its first entry is a jax array; it raises for
    the empty dictionary and when the first entry is a NumPy array. *)
Theorem C94_ready_partial : forall (T K : Type) (keq : K -> K -> bool) (h : @heap T) (d : @tdict T K),
  keq_ok keq -> fresh d_refresh h d \/ fresh r_refresh h d ->
  block_until_ready keq d = match td_items d with (_, Jax _) :: _ => Some d | _ => None end.
Proof.
  intros T K keq h d Hk H.
  assert (td_keys d = map fst (td_items d)) as E.
  { destruct H as [[_ H]|[_ H]]; [apply (d_refresh_items _ _ _ H)|apply (r_refresh_items _ _ _ H)]. }
  unfold block_until_ready. rewrite E. destruct (td_items d) as [|[k v] it]; [reflexivity|]. cbn.
  rewrite (keq_refl _ Hk). cbn. destruct v; reflexivity.
Qed.
Print Assumptions C94_ready_partial.
Theorem C94_ready_numpy_refuted : forall (T K : Type) (keq : K -> K -> bool) (h : @heap T) (d : @tdict T K) k l it,
  keq_ok keq -> fresh d_refresh h d \/ fresh r_refresh h d -> td_items d = (k, Np l) :: it -> block_until_ready keq d = None.
Proof. intros T K keq h d k l it Hk H E. rewrite (C94_ready_partial T K keq h d Hk H), E. reflexivity. Qed.
Print Assumptions C94_ready_numpy_refuted.
Example C94_case :
  let d := TD [(1, Jax (flat [1])); (2, Jax (flat [3]))] [1; 2] [Some (0, 1)%nat; Some (1, 2)%nat] in
  update_run Z.eqb [] d [(5, Jax (flat [7; 8])); (1, Jax (flat [9; 9])); (5, Jax (flat [6]))]
  = (TD [(1, Jax (flat [9; 9])); (2, Jax (flat [3])); (5, Jax (flat [6]))] [1; 2; 5] [Some (0, 2)%nat; Some (2, 3)%nat; Some (3, 4)%nat], Done) /\
  snd (update_run Z.eqb [] d [(1, Jax (Arr_ [] [4]))]) = Raised /\ fresh d_refresh [] d.
Proof. split; [reflexivity|]. split; [reflexivity|]. split; [repeat constructor; cbn; intuition discriminate|reflexivity]. Qed.
