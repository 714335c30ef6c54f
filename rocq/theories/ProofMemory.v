(** Proofs for C76: a small separation logic for [cmd], and the invariant of a run. *)
From Coq Require Import List Arith Bool Lia Permutation.
From Verif Require Import Base ModelRegistry ModelMemory.
Import ListNotations.

Definition wfm (m : mem) : Prop := NoDup (map k_id (live m)) /\ Forall (fun b => k_id b < next m) (live m).
(** numbers are not used again *)
Definition grows (m m' : mem) : Prop :=
  next m <= next m' /\ forall b, In b (live m') -> In b (live m) \/ next m <= k_id b.
Lemma grows_refl m : grows m m. Proof. split; auto. Qed.
Lemma grows_trans m1 m2 m3 : grows m1 m2 -> grows m2 m3 -> grows m1 m3.
Proof. intros [L1 H1] [L2 H2]. split; [lia|]. intros b Hb. destruct (H2 b Hb) as [Hb'|Hb']; [apply H1, Hb'|right; lia]. Qed.
(** from [P] and anything else, [c] runs and leaves [Q] and the rest *)
Definition triple {A} (P : list block) (c : cmd A) (Q : A -> list block) : Prop :=
  forall m F, wfm m -> Permutation (live m) (P ++ F) ->
    exists m' a, c m = Some (m', a) /\ (wfm m' /\ grows m m') /\ Permutation (live m') (Q a ++ F).

Lemma t_ret {A} P (a : A) : triple P (ret a) (fun _ => P).
Proof. intros m F W H. exists m, a. auto using grows_refl. Qed.
Lemma t_seq {A B} P (c : cmd A) Q (f : A -> cmd B) R : triple P c Q -> (forall a, triple (Q a) (f a) R) -> triple P (seqc c f) R.
Proof.
  intros Hc Hf m F W H. destruct (Hc m F W H) as (m1 & a & E & [W1 G1] & H1). destruct (Hf a m1 F W1 H1) as (m2 & b & E2 & [W2 G2] & H2).
  exists m2, b. unfold seqc. rewrite E. split; [exact E2|]. split; [|exact H2]. split; [exact W2|exact (grows_trans _ _ _ G1 G2)].
Qed.
Lemma t_pre {A} P P' (c : cmd A) Q : Permutation P' P -> triple P c Q -> triple P' c Q.
Proof. intros HP H m F W HF. apply H; [exact W|]. rewrite HF. apply Permutation_app_tail, HP. Qed.
Lemma t_post {A} P (c : cmd A) Q Q' : (forall a, Permutation (Q a) (Q' a)) -> triple P c Q -> triple P c Q'.
Proof.
  intros HQ H m F W HF. destruct (H m F W HF) as (m' & a & E & W' & H'). exists m', a. split; [exact E|]. split; [exact W'|].
  rewrite H'. apply Permutation_app_tail, HQ.
Qed.
Lemma t_frame {A} P (c : cmd A) Q R : triple P c Q -> triple (P ++ R) c (fun a => Q a ++ R).
Proof.
  intros H m F W HF. rewrite <- app_assoc in HF. destruct (H m (R ++ F) W HF) as (m' & a & E & W' & H').
  exists m', a. rewrite <- app_assoc. auto.
Qed.
Lemma t_new k n P : triple P (anew k n) (fun a => Block a k n :: P).
Proof.
  intros m F [N L] H. eexists _, _. split; [reflexivity|]. split.
  - split; [split; cbn|split; cbn; [lia|intros b [<-|Hb]; [right; cbn; lia|left; exact Hb]]].
    + constructor; [|exact N]. intros Hi. apply in_map_iff in Hi as (b & E & Hb). rewrite Forall_forall in L. specialize (L b Hb). lia.
    + constructor; [cbn; lia|]. eapply Forall_impl; [|exact L]. cbn. lia.
  - cbn. constructor. exact H.
Qed.
Lemma find_block m a k n R : wfm m -> Permutation (live m) (Block a k n :: R) ->
  find (fun b => k_id b =? a) (live m) = Some (Block a k n).
Proof.
  intros [N _] H. assert (In (Block a k n) (live m)) as Hi by (rewrite H; left; reflexivity).
  destruct (find _ (live m)) as [b|] eqn:E.
  - apply find_some in E as [Hb E]. apply Nat.eqb_eq in E. f_equal.
    clear H. induction (live m) as [|x l IH]; [destruct Hi|]. cbn in N. inversion N as [|y l' Hx Hl]; subst.
    destruct Hi as [->|Hi], Hb as [->|Hb]; try reflexivity; try (apply IH; assumption); exfalso; apply Hx.
    + change (k_id (Block (k_id b) k n)) with (k_id b). apply in_map, Hb.
    + change (k_id b) with (k_id (Block (k_id b) k n)). apply in_map, Hi.
  - exfalso. apply (find_none _ _ E) in Hi. cbn in Hi. rewrite Nat.eqb_refl in Hi. discriminate.
Qed.
Lemma t_use a k n P : triple (Block a k n :: P) (ause a) (fun _ => Block a k n :: P).
Proof.
  intros m F W H. exists m, tt. split; [|auto using grows_refl]. unfold ause. rewrite (find_block m a k n (P ++ F) W H). reflexivity.
Qed.
Lemma kind_eqb_refl k : kind_eqb k k = true.
Proof. destruct k; reflexivity. Qed.
Lemma filter_perm {A} (f : A -> bool) l l' : Permutation l l' -> Permutation (filter f l) (filter f l').
Proof.
  induction 1; cbn.
  - constructor.
  - destruct (f x); [constructor|]; assumption.
  - destruct (f x), (f y); try reflexivity. constructor.
  - etransitivity; eassumption.
Qed.
Lemma t_del a k n P : triple (Block a k n :: P) (adel k a) (fun _ => P).
Proof.
  intros m F W H. pose proof (find_block m a k n (P ++ F) W H) as E. unfold adel. rewrite E. cbn [k_kind]. rewrite kind_eqb_refl.
  eexists _, tt. split; [reflexivity|]. destruct W as [N L].
  assert (Permutation (filter (fun b => negb (k_id b =? a)) (live m)) (P ++ F)) as HP.
  { rewrite (filter_perm _ _ _ H). cbn. rewrite Nat.eqb_refl. cbn.
    apply (Permutation_map k_id) in H. cbn in H. apply (Permutation_NoDup H) in N. inversion N as [|x l Hx Hl]; subst.
    assert (forall l, ~ In a (map k_id l) -> filter (fun b => negb (k_id b =? a)) l = l) as Hf; [|rewrite Hf; [reflexivity|exact Hx]].
    clear. induction l as [|x l IH]; cbn; [reflexivity|]. intros Hn. destruct (Nat.eqb_spec (k_id x) a); [exfalso; auto|]. cbn. f_equal. auto. }
  split; [|exact HP]. split; [split; cbn|split; cbn; [lia|intros b Hb; left; apply filter_In in Hb; apply Hb]].
  - apply (Permutation_map k_id) in HP, H. symmetry in HP. apply (Permutation_NoDup HP). apply (Permutation_NoDup H) in N. inversion N; assumption.
  - apply Forall_forall. intros b Hb. apply filter_In in Hb as [Hb _]. rewrite Forall_forall in L. auto.
Qed.

(** ** Automation: bring the block to the front *)
Lemma perm_front {A} (x : A) l1 l2 : Permutation (l1 ++ x :: l2) (x :: l1 ++ l2).
Proof. symmetry. apply Permutation_middle. Qed.
Lemma t_use_in a P : In a (map k_id P) -> triple P (ause a) (fun _ => P).
Proof.
  intros Hi. apply in_map_iff in Hi as ([a' k n] & E & Hi). cbn in E. subst a'. apply in_split in Hi as (l1 & l2 & ->).
  eapply t_pre; [apply perm_front|]. apply (t_post _ _ (fun _ => Block a k n :: l1 ++ l2)); [|apply t_use]. intros u. apply Permutation_middle.
Qed.
Lemma t_del_at a k n l1 l2 P : P = l1 ++ Block a k n :: l2 -> triple P (adel k a) (fun _ => l1 ++ l2).
Proof. intros ->. eapply t_pre; [apply perm_front|]. apply t_del. Qed.
Lemma t_times n c P : triple P c (fun _ => P) -> triple P (times n c) (fun _ => P).
Proof. intros H. induction n as [|n IH]; [apply t_ret|]. cbn. eapply t_seq; [exact H|]. intros u. exact IH. Qed.
Lemma t_if {A} (b : bool) P (c1 c2 : cmd A) Q : triple P c1 Q -> triple P c2 Q -> triple P (if b then c1 else c2) Q.
Proof. destruct b; auto. Qed.

Ltac split_at a P :=
  lazymatch P with
  | Block a _ _ :: ?l => constr:((@nil block, l))
  | ?x :: ?l => let r := split_at a l in lazymatch r with (?p, ?q) => constr:((x :: p, q)) end
  end.
Ltac t_del_tac :=
  lazymatch goal with |- triple ?P (adel _ ?a) _ =>
    let r := split_at a P in lazymatch r with (?p, ?q) => apply (t_del_at a _ _ p q P eq_refl) end end.
Ltac t_atom :=
  lazymatch goal with
  | |- triple _ (anew _ _) _ => apply t_new
  | |- triple _ (ause _) _ => apply t_use_in; cbn; tauto
  | |- triple _ (adel _ _) _ => t_del_tac
  | |- triple _ (ret _) _ => apply t_ret
  end.
Ltac t_go := repeat (lazymatch goal with |- triple _ (seqc _ _) _ => eapply t_seq; [solve [t_atom]|intros; cbn [app]] end).

(** ** What an object owns *)
Definition own_live (o : cobj) : list block :=
  [Block (p_self o) AObj 1; Block (p_nC o) ANew (if is_nd (p_cls o) then p_dim o * p_numC o else p_numC o); Block (p_cap o) APy 1] ++
  (if is_nd (p_cls o) then [Block (p_x0 o) ANew (p_dim o); Block (p_c o) ANew (p_dim o)] else []) ++
  (if is_elm (p_cls o) then [Block (p_w o) ANew (if is_nd (p_cls o) then p_dim o * p_m o else p_m o); Block (p_b o) ANew (p_m o)] else []).
(** and what is left of it *)
Definition own_dead (o : cobj) : list block :=
  Block (p_cap o) APy 1 :: (if is_nd (p_cls o) then [Block (p_x0 o) ANew (p_dim o)] else []).

Ltac split_el x P :=
  lazymatch P with
  | x :: ?l => constr:((@nil block, l))
  | ?y :: ?l => let r := split_el x l in lazymatch r with (?p, ?q) => constr:((y :: p, q)) end
  end.
Ltac perm_ := cbn;
  repeat (lazymatch goal with
  | |- Permutation ?l ?l => reflexivity
  | |- Permutation (?x :: ?l) ?r =>
      let s := split_el x r in lazymatch s with (?p, ?q) => apply (Permutation_cons_app p q x (l := l)); cbn [app] end
  end).
Lemma t_retq {A} P (a : A) Q : Permutation P (Q a) -> triple P (ret a) Q.
Proof. intros H m F W HF. exists m, a. split; [reflexivity|]. split; [auto using grows_refl|]. rewrite HF. apply Permutation_app_tail, H. Qed.

Lemma t_construct k dim numC m num numFull P :
  triple P (construct k dim numC m num numFull) (fun o => own_live o ++ P).
Proof.
  unfold construct. destruct k; cbn [is_nd is_elm]; t_go; apply t_retq; perm_.
Qed.
Lemma t_assoc {A B C} P (c : cmd A) (f : A -> cmd B) (g : B -> cmd C) Q :
  triple P (seqc c (fun a => seqc (f a) g)) Q -> triple P (seqc (seqc c f) g) Q.
Proof.
  intros H m F W HF. destruct (H m F W HF) as (m' & a & E & R). exists m', a. split; [|exact R].
  unfold seqc in *. destruct (c m) as [[m1 a1]|]; [exact E|discriminate].
Qed.
Lemma t_last P (c : cmd unit) Q Q' : triple P c Q -> Permutation (Q tt) (Q' tt) -> triple P c Q'.
Proof. intros H HQ. apply (t_post P c Q Q'); [|exact H]. intros []. exact HQ. Qed.
Ltac t_run := repeat (lazymatch goal with
  | |- triple _ (seqc (seqc _ _) _) _ => apply t_assoc
  | |- triple _ (seqc _ _) _ => eapply t_seq; [solve [t_atom]|intros; cbn [app]]
  end).
Ltac t_end := eapply t_last; [t_atom|perm_].

Lemma t_destroy o P : triple (own_live o ++ P) (destroy o) (fun _ => own_dead o ++ P).
Proof. unfold destroy, own_live, own_dead. destruct (p_cls o); cbn; t_run; t_end. Qed.

(** ** Methods: everything allocated on the way is released *)
Definition has (P : list block) (a : nat) : Prop := In a (map k_id P).
Lemma has_cons P b a : has P a -> has (b :: P) a. Proof. right. assumption. Qed.
Lemma has_hd P a k n : has (Block a k n :: P) a. Proof. left. reflexivity. Qed.
Lemma t_temp {A} P k n (f : nat -> cmd A) Q :
  (forall a, triple (Block a k n :: P) (f a) Q) -> triple P (seqc (anew k n) f) Q.
Proof. intros H. eapply t_seq; [apply t_new|]. exact H. Qed.
Lemma t_use_then {A} P a (f : cmd A) Q : has P a -> triple P f Q -> triple P (seqc (ause a) (fun _ => f)) Q.
Proof. intros Ha H. eapply t_seq; [apply t_use_in, Ha|]. intros u. exact H. Qed.
Lemma t_del_then {A} P l1 l2 a k n (f : cmd A) Q : P = l1 ++ Block a k n :: l2 -> triple (l1 ++ l2) f Q ->
  triple P (seqc (adel k a) (fun _ => f)) Q.
Proof. intros E H. eapply t_seq; [apply (t_del_at a k n l1 l2 P E)|]. intros u. exact H. Qed.
Lemma t_call {A} P (c : cmd unit) (f : cmd A) Q : triple P c (fun _ => P) -> triple P f Q -> triple P (seqc c (fun _ => f)) Q.
Proof. intros Hc Hf. eapply t_seq; [exact Hc|]. intros u. exact Hf. Qed.
Ltac has_ := first [assumption | apply has_hd | apply has_cons; has_].
Ltac del_then := lazymatch goal with |- triple ?P (seqc (adel _ ?a) _) _ =>
    let r := split_at a P in lazymatch r with (?p, ?q) => apply (t_del_then P p q a _ _ _ _ eq_refl); cbn [app] end end.
Ltac go := repeat (lazymatch goal with
  | |- triple _ (seqc (seqc _ _) _) _ => apply t_assoc
  | |- triple _ (seqc (ret _) _) _ => eapply t_seq; [apply t_ret|intros ?u]
  | |- triple _ (seqc (anew _ _) _) _ => apply t_temp; intros
  | |- triple _ (seqc (ause _) _) _ => apply t_use_then; [has_|]
  | |- triple _ (seqc (adel _ _) _) _ => del_then
  | |- triple _ (ause _) _ => apply t_use_in; has_
  | |- triple ?P (ret _) (fun _ => ?P) => apply t_ret
  | |- triple ?P (adel _ ?a) _ => let r := split_at a P in lazymatch r with (?p, ?q) => apply (t_del_at a _ _ p q P eq_refl) end
  end).
Lemma t_recurse d m n F P : has P F -> triple P (recurse_deriv d m n F) (fun _ => P).
Proof. intros H. apply t_times. go. Qed.
Record has_obj (P : list block) (o : cobj) : Prop := HasObj {
  h_self : has P (p_self o); h_nC : has P (p_nC o);
  h_nd : is_nd (p_cls o) = true -> has P (p_x0 o) /\ has P (p_c o);
  h_elm : is_elm (p_cls o) = true -> has P (p_w o) /\ has P (p_b o) }.
Lemma ho_cons P o b : has_obj P o -> has_obj (b :: P) o.
Proof. intros [H1 H2 H3 H4]. split; [apply has_cons, H1|apply has_cons, H2| |]; intros E; [destruct (H3 E)|destruct (H4 E)]; split; apply has_cons; assumption. Qed.
Lemma ho_own o P : has_obj (own_live o ++ P) o.
Proof. split; unfold own_live, has; [cbn; tauto|cbn; tauto| |]; intros ->; destruct (is_nd (p_cls o)); cbn; tauto. Qed.
Ltac ho_ := first [assumption | apply ho_cons; ho_].
Lemma t_hint o d n z dark P : has_obj P o -> has P z -> has P dark -> triple P (hint o d n z dark) (fun _ => P).
Proof.
  intros [H1 H2 H3 H4] Hz Hd. unfold hint. go.
  destruct (p_cls o); cbn in H4; try destruct (H4 eq_refl) as [Hw Hb]; try (apply t_if; [apply t_ret|apply t_recurse, Hd]); go.
Qed.
(** a command that leaves memory as it is, whatever else there is *)
Definition quiet (P : list block) (use : cmd unit) : Prop := forall R, triple (R ++ P) use (fun _ => R ++ P).
Lemma quiet_cons P use b : quiet P use -> quiet (b :: P) use.
Proof. intros H R. specialize (H (R ++ [b])). rewrite <- app_assoc in H. exact H. Qed.
Lemma quiet_run P use : quiet P use -> triple P use (fun _ => P).
Proof. intros H. exact (H []). Qed.
Lemma quiet_ret P : quiet P (ret tt). Proof. intros R. apply t_ret. Qed.
Lemma quiet_use P a : has P a -> quiet P (ause a).
Proof. intros H R. apply t_use_in. rewrite map_app. apply in_or_app. right. exact H. Qed.
Ltac quiet_ := first [assumption | apply quiet_ret | apply quiet_use; has_ | apply quiet_cons; quiet_].

Lemma t_fill1 o d n full dark z use P : has_obj P o -> quiet P use ->
  triple (Block z ANew n :: Block dark ANew (n * p_m o) :: P) (fill1 o d n full dark z use) (fun _ => P).
Proof.
  intros Ho Hu. pose proof Ho as [H1 H2 _ _]. unfold fill1. go. apply t_call; [apply t_hint; [ho_|has_|has_]|].
  apply t_call; [apply t_if; go|]. go. apply t_call; [apply quiet_run; quiet_|]. go.
Qed.
Lemma t_H1 o d n full P : has_obj P o ->
  triple P (H1mem o d n full) (fun F => Block F AMalloc ((if full then p_m o else p_m o - p_numC o) * n) :: P).
Proof.
  intros Ho. pose proof Ho as [H1 _ _ _]. unfold H1mem. apply t_use_then; [has_|]. apply t_temp. intros dark. apply t_temp. intros z.
  apply t_temp. intros F. set (b := Block F AMalloc _).
  eapply t_pre; [apply perm_swap|]. eapply t_pre; [apply perm_skip, perm_swap|].
  eapply t_seq; [apply (t_fill1 o d n full dark z (ause F) (b :: P)); [ho_|apply quiet_use, has_hd]|].
  intros u. apply t_retq. reflexivity.
Qed.
Lemma t_xla1 o d n full P : has_obj P o -> triple P (xla1mem o d n full) (fun _ => P).
Proof.
  intros Ho. pose proof Ho as [H1 _ _ _]. unfold xla1mem. apply t_use_then; [has_|]. apply t_temp. intros dark. apply t_temp. intros z.
  apply t_fill1; [exact Ho|apply quiet_ret].
Qed.
Lemma t_hints o dims n z dark T P : has_obj P o -> is_nd (p_cls o) = true -> has P z -> has P dark -> has P T ->
  forall d, triple P (hints o d dims n z dark T) (fun _ => P).
Proof.
  intros Ho Hn Hz Hd HT. destruct (h_nd _ _ Ho Hn) as [_ Hc]. induction dims as [|k IH]; intros d; [apply t_ret|]. cbn [hints].
  apply t_call; [apply t_hint; assumption|]. go. apply IH.
Qed.
Lemma t_nhint o d n use P : has_obj P o -> is_nd (p_cls o) = true -> quiet P use -> triple P (nhint o d n use) (fun _ => P).
Proof.
  intros Ho Hn Hu. destruct (h_nd _ _ Ho Hn) as [Hx Hc]. pose proof Ho as [_ H2 _ _]. unfold nhint. go.
  apply t_call; [apply t_hints; [ho_|exact Hn|has_|has_|has_]|]. apply t_call; [apply quiet_run; quiet_|]. go.
  apply t_call; [apply quiet_run; quiet_|]. go.
Qed.
Lemma t_nelmhint o n z use P : has_obj P o -> is_nd (p_cls o) = true -> is_elm (p_cls o) = true -> has P z -> quiet P use ->
  triple P (nelmhint o n z use) (fun _ => P).
Proof.
  intros Ho Hn He Hz Hu. destruct (h_nd _ _ Ho Hn) as [Hx Hc]. destruct (h_elm _ _ Ho He) as [Hw Hb]. unfold nelmhint.
  destruct (p_cls o); try (go; apply quiet_run; assumption). go. apply t_call; [apply quiet_run; quiet_|]. go.
Qed.
Lemma t_nelm_nhint o n whole use P : has_obj P o -> is_nd (p_cls o) = true -> is_elm (p_cls o) = true -> quiet P use ->
  triple P (nelm_nhint o n whole use) (fun _ => P).
Proof.
  intros Ho Hn He Hu. destruct (h_nd _ _ Ho Hn) as [Hx Hc]. pose proof Ho as [_ H2 _ _]. unfold nelm_nhint. go.
  apply t_call; [|go]. apply t_if.
  - apply t_nelmhint; [ho_|exact Hn|exact He|has_|quiet_].
  - go. apply t_call; [apply t_nelmhint; [ho_|exact Hn|exact He|has_|apply quiet_use; has_]|]. go. apply t_call; [apply quiet_run; quiet_|]. go.
Qed.
Lemma t_nfill o d n full use P : has_obj P o -> is_nd (p_cls o) = true -> quiet P use -> triple P (nfill o d n full use) (fun _ => P).
Proof.
  intros Ho Hn Hu. pose proof (h_self _ _ Ho). unfold nfill. go. destruct (is_elm (p_cls o)) eqn:E; [apply t_nelm_nhint|apply t_nhint]; assumption.
Qed.
Definition h_size (o : cobj) (n : nat) (full : bool) : nat :=
  (if is_nd (p_cls o) then (if full then p_numFull o else p_num o) else (if full then p_m o else p_m o - p_numC o)) * n.
Lemma t_H o d n full P : has_obj P o -> triple P (Hmem o d n full) (fun F => Block F AMalloc (h_size o n full) :: P).
Proof.
  intros Ho. pose proof (h_self _ _ Ho) as H1. unfold Hmem, h_size. destruct (is_nd (p_cls o)) eqn:E; [|apply t_H1, Ho].
  unfold nHmem. go. apply t_call; [apply t_nfill; [ho_|exact E|apply quiet_use, has_hd]|]. apply t_retq. reflexivity.
Qed.
Lemma t_xla o d n full P : has_obj P o -> triple P (xlamem o d n full) (fun _ => P).
Proof.
  intros Ho. unfold xlamem. destruct (is_nd (p_cls o)) eqn:E; [|apply t_xla1, Ho]. apply t_nfill; [exact Ho|exact E|apply quiet_ret].
Qed.
Lemma t_getW o P : has_obj P o -> is_elm (p_cls o) = true ->
  triple P (getWmem o) (fun F => Block F AMalloc (if is_nd (p_cls o) then p_m o * p_dim o else p_m o) :: P).
Proof. intros Ho E. pose proof (h_self _ _ Ho). destruct (h_elm _ _ Ho E). unfold getWmem. go. apply t_retq. reflexivity. Qed.
Lemma t_getB o P : has_obj P o -> is_elm (p_cls o) = true -> triple P (getBmem o) (fun F => Block F AMalloc (p_m o) :: P).
Proof. intros Ho E. pose proof (h_self _ _ Ho). destruct (h_elm _ _ Ho E). unfold getBmem. go. apply t_retq. reflexivity. Qed.

(** ** Runs *)
Definition arr_of (h : handle) : list nat := match h with HArr a => [a] | _ => [] end.
Definition arrs (vars : list handle) : list nat := flat_map arr_of vars.
Definition part (vars : list handle) (i : nat) (o : cobj) : list block := if existsb (keeps i) vars then own_live o else own_dead o.
Fixpoint parts (vars : list handle) (n : nat) (objs : list cobj) : list block :=
  match objs with [] => [] | o :: r => part vars n o ++ parts vars (S n) r end.
Definition hnum (h : handle) : option nat := match h with HObj i | HView i | HCap i => Some i | HArr _ => None end.
Record inv (s : pstate) : Prop := Inv {
  i_wf : wfm (s_mem s);
  i_num : forall h i, In h (s_vars s) -> hnum h = Some i -> i < length (s_objs s);
  i_view : forall i o, In (HView i) (s_vars s) -> nth_error (s_objs s) i = Some o -> is_nd (p_cls o) = true;
  i_self : forall i o, nth_error (s_objs s) i = Some o -> p_self o < next (s_mem s) /\
             (existsb (keeps i) (s_vars s) = false -> ~ has (live (s_mem s)) (p_self o));
  i_mem : exists ab, map k_id ab = arrs (s_vars s) /\ Forall (fun b => k_kind b = AMalloc) ab /\
             Permutation (live (s_mem s)) (parts (s_vars s) 0 (s_objs s) ++ ab) }.

Lemma parts_split v v' objs : forall n i o, nth_error objs i = Some o ->
  (forall i', i' <> n + i -> existsb (keeps i') v = existsb (keeps i') v') ->
  exists R, Permutation (parts v n objs) (part v (n + i) o ++ R) /\ Permutation (parts v' n objs) (part v' (n + i) o ++ R).
Proof.
  induction objs as [|x objs IH]; intros n [|i] o E H; try discriminate; cbn [nth_error parts] in *.
  - injection E as ->. exists (parts v (S n) objs). rewrite Nat.add_0_r in *. split; [reflexivity|].
    assert (parts v (S n) objs = parts v' (S n) objs) as ->; [|reflexivity].
    assert (forall k, n < k -> parts v k objs = parts v' k objs) as Hk; [|apply Hk; lia].
    clear - H. induction objs as [|y objs IH]; intros k Hk; [reflexivity|]. cbn. rewrite (IH (S k)) by lia. f_equal.
    unfold part. rewrite (H k) by lia. reflexivity.
  - replace (n + S i) with (S n + i) in * by lia. destruct (IH (S n) i o E H) as (R & H1 & H2). exists (part v n x ++ R).
    assert (part v' n x = part v n x) as -> by (unfold part; rewrite (H n) by lia; reflexivity).
    rewrite H1, H2. split; rewrite !app_assoc; apply Permutation_app_tail, Permutation_app_comm.
Qed.
Lemma parts_same v v' objs n : (forall i, existsb (keeps i) v = existsb (keeps i) v') -> parts v n objs = parts v' n objs.
Proof. intros H. revert n. induction objs as [|o r IH]; intros n; cbn; [reflexivity|]. unfold part. rewrite H, IH. reflexivity. Qed.
Lemma parts_app v objs o : forall n, parts v n (objs ++ [o]) = parts v n objs ++ part v (n + length objs) o.
Proof.
  induction objs as [|x r IH]; intros n; cbn; [rewrite Nat.add_0_r, app_nil_r; reflexivity|]. rewrite IH, app_assoc.
  replace (S n + length r) with (n + S (length r)) by lia. reflexivity.
Qed.
Lemma arrs_app v v' : arrs (v ++ v') = arrs v ++ arrs v'.
Proof. apply flat_map_app. Qed.
Lemma nth_drop {X} (l : list X) j x : nth_error l j = Some x -> exists l1 l2, l = l1 ++ x :: l2 /\ drop_nth j l = l1 ++ l2.
Proof.
  revert j. induction l as [|y l IH]; intros [|j] E; try discriminate.
  - injection E as ->. exists [], l. auto.
  - destruct (IH j E) as (l1 & l2 & -> & D). exists (y :: l1), l2. split; [reflexivity|]. cbn. f_equal. exact D.
Qed.
Lemma keeps_in i vars : existsb (keeps i) vars = true <-> In (HObj i) vars \/ In (HView i) vars.
Proof.
  rewrite existsb_exists. split.
  - intros (h & Hi & E). destruct h; try discriminate; cbn in E; apply Nat.eqb_eq in E; subst; auto.
  - intros [H|H]; eexists; (split; [exact H|]); cbn; apply Nat.eqb_refl.
Qed.
Lemma inv_init : inv pinit.
Proof.
  split; cbn; try tauto.
  - split; constructor.
  - intros [|i] o E; discriminate.
  - exists []. split; [reflexivity|]. split; constructor.
Qed.
(** an object that is held *)
Lemma inv_obj s i o : inv s -> nth_error (s_objs s) i = Some o -> existsb (keeps i) (s_vars s) = true ->
  exists R, Permutation (live (s_mem s)) (own_live o ++ R) /\ forall P, Permutation P (own_live o ++ R) -> Permutation P (live (s_mem s)).
Proof.
  intros I E K. destruct (i_mem s I) as (ab & _ & _ & HP). destruct (parts_split (s_vars s) (s_vars s) (s_objs s) 0 i o E) as (R & H1 & _); [auto|].
  cbn in H1. unfold part in H1. rewrite K in H1. exists (R ++ ab).
  assert (Permutation (live (s_mem s)) (own_live o ++ R ++ ab)) as HL by (rewrite HP, H1, app_assoc; reflexivity).
  split; [exact HL|]. intros P H. rewrite H, HL. reflexivity.
Qed.
Lemma has_perm P Q a : Permutation P Q -> has P a -> has Q a.
Proof. intros H. unfold has. apply Permutation_in, Permutation_map, H. Qed.
Lemma gone_grows m m' a : grows m m' -> a < next m -> ~ has (live m) a -> ~ has (live m') a.
Proof.
  intros [_ G] La Hn Hh. apply in_map_iff in Hh as (b & E & Hb). destruct (G b Hb) as [Hb'|Hb']; [|lia].
  apply Hn. apply in_map_iff. eauto.
Qed.
(** a call that adds the blocks [B] (none or one) for the variables [hs] *)
Lemma inv_call s m' hs ab : inv s -> wfm m' -> grows (s_mem s) m' -> Permutation (live m') (ab ++ live (s_mem s)) ->
  map k_id ab = arrs hs -> Forall (fun b => k_kind b = AMalloc) ab ->
  (forall i, existsb (keeps i) hs = true -> existsb (keeps i) (s_vars s) = true) ->
  (forall h i, In h hs -> hnum h = Some i -> i < length (s_objs s)) ->
  (forall i o, In (HView i) hs -> nth_error (s_objs s) i = Some o -> is_nd (p_cls o) = true) ->
  inv (PState m' (s_objs s) (s_vars s ++ hs)).
Proof.
  intros I W G HP Hab HF HK HN HV.
  assert (forall i, existsb (keeps i) (s_vars s ++ hs) = existsb (keeps i) (s_vars s)) as HE.
  { intros i. rewrite existsb_app. specialize (HK i). destruct (existsb (keeps i) (s_vars s)), (existsb (keeps i) hs); cbn; try reflexivity. discriminate (HK eq_refl). }
  split; cbn.
  - exact W.
  - intros h i Hi E. apply in_app_or in Hi as [Hi|Hi]; [apply (i_num s I h i Hi E)|apply (HN h i Hi E)].
  - intros i o Hi E. apply in_app_or in Hi as [Hi|Hi]; [apply (i_view s I i o Hi E)|apply (HV i o Hi E)].
  - intros i o E. destruct (i_self s I i o E) as [L D]. split; [destruct G; lia|]. rewrite HE. intros K. apply (gone_grows _ _ _ G L), D, K.
  - destruct (i_mem s I) as (ab' & E1 & F1 & P1). exists (ab' ++ ab). split; [rewrite map_app, arrs_app, E1, Hab; reflexivity|].
    split; [apply Forall_app; auto|]. rewrite HP, P1, (parts_same (s_vars s ++ hs) (s_vars s) _ _ HE). rewrite (app_assoc (parts (s_vars s) 0 (s_objs s)) ab' ab). apply Permutation_app_comm.
Qed.
Lemma existsb_snoc i vars h : keeps i h = false -> existsb (keeps i) (vars ++ [h]) = existsb (keeps i) vars.
Proof. intros H. rewrite existsb_app. cbn. rewrite H, !orb_false_r. reflexivity. Qed.
Lemma inv_new s k dim numC m num numFull : inv s ->
  exists m' o, construct k dim numC m num numFull (s_mem s) = Some (m', o) /\ p_cls o = k /\ p_dim o = dim /\
    inv (PState m' (s_objs s ++ [o]) (s_vars s ++ [HObj (length (s_objs s))])).
Proof.
  intros I. destruct (t_construct k dim numC m num numFull [] (s_mem s) (live (s_mem s)) (i_wf s I)) as (m' & o & E & [W G] & HP); [reflexivity|].
  exists m', o. split; [exact E|]. assert (p_cls o = k /\ p_dim o = dim) as [Hk Hd].
  { clear - E. unfold construct, seqc in E. destruct k; cbn [is_nd is_elm] in E;
      repeat match type of E with (match ?x with _ => _ end) = _ => destruct x as [[? ?]|]; [|discriminate] end; injection E as _ <-; auto. }
  split; [exact Hk|]. split; [exact Hd|]. rewrite app_nil_r in HP. set (n := length (s_objs s)).
  assert (forall i, i <> n -> existsb (keeps i) (s_vars s ++ [HObj n]) = existsb (keeps i) (s_vars s)) as HE.
  { intros i Hi. apply existsb_snoc. cbn. apply Nat.eqb_neq. auto. }
  assert (forall i o', nth_error (s_objs s ++ [o]) i = Some o' -> (i < n /\ nth_error (s_objs s) i = Some o') \/ (i = n /\ o' = o)) as HN.
  { intros i o' Ei. destruct (Nat.lt_ge_cases i n) as [Hi|Hi]; [left; rewrite nth_error_app1 in Ei by exact Hi; auto|right].
    rewrite nth_error_app2 in Ei by exact Hi. destruct (i - length (s_objs s)) as [|j] eqn:Ej; [injection Ei as <-; fold n in Ej; split; [lia|reflexivity]|destruct j; discriminate]. }
  split; cbn.
  - exact W.
  - intros h i Hi Eh. rewrite app_length. cbn. apply in_app_or in Hi as [Hi|[<-|[]]]; [pose proof (i_num s I h i Hi Eh); lia|injection Eh as <-; fold n; lia].
  - intros i o' Hi Eo. apply in_app_or in Hi as [Hi|[Hi|[]]]; [|discriminate]. destruct (HN i o' Eo) as [[_ Eo']|[-> _]]; [apply (i_view s I i o' Hi Eo')|].
    pose proof (i_num s I _ n Hi eq_refl). fold n in H. lia.
  - intros i o' Eo. destruct (HN i o' Eo) as [[Hi Eo']|[-> ->]].
    + destruct (i_self s I i o' Eo') as [L D]. split; [destruct G; lia|]. rewrite HE by lia. intros K. apply (gone_grows _ _ _ G L), D, K.
    + split.
      * destruct W as [_ L]. rewrite Forall_forall in L. apply (L (Block (p_self o) AObj 1)). rewrite HP. left. reflexivity.
      * intros K. exfalso. rewrite existsb_app in K. cbn in K. rewrite Nat.eqb_refl, orb_true_r in K. discriminate.
  - destruct (i_mem s I) as (ab & E1 & F1 & P1). exists ab. split; [rewrite arrs_app; cbn; rewrite app_nil_r; exact E1|]. split; [exact F1|].
    rewrite HP, P1, parts_app. cbn [Nat.add]. fold n. unfold part. rewrite existsb_app. cbn [existsb keeps]. rewrite Nat.eqb_refl, orb_true_r.
    rewrite <- app_assoc. rewrite (app_assoc (own_live o)). rewrite (app_assoc _ (own_live o) ab). apply Permutation_app_tail.
    assert (parts (s_vars s ++ [HObj n]) 0 (s_objs s) = parts (s_vars s) 0 (s_objs s)) as ->; [|apply Permutation_app_comm].
    assert (forall l j, j + length l <= n -> parts (s_vars s ++ [HObj n]) j l = parts (s_vars s) j l) as Hp; [|apply Hp; cbn; lia].
    clear - HE. induction l as [|x l IH]; intros j Hj; [reflexivity|]. cbn in *. rewrite (IH (S j)) by lia. unfold part. rewrite HE by lia. reflexivity.
Qed.
(** releasing the variable [h] *)
Lemma inv_release s v1 v2 h : inv s -> s_vars s = v1 ++ h :: v2 ->
  exists m', release (s_objs s) (v1 ++ v2) h (s_mem s) = Some (m', tt) /\ inv (PState m' (s_objs s) (v1 ++ v2)).
Proof.
  intros I EV. destruct I as [W N V SF (ab & E1 & F1 & P1)]. rewrite EV in *.
  assert (Hin : forall x, In x (v1 ++ v2) -> In x (v1 ++ h :: v2)) by (intros x Hx; apply in_app_or in Hx; apply in_or_app; cbn; tauto).
  assert (HE : forall i, keeps i h = false -> existsb (keeps i) (v1 ++ h :: v2) = existsb (keeps i) (v1 ++ v2)).
  { intros i Hi. rewrite !existsb_app. cbn. rewrite Hi. reflexivity. }
  (* nothing but the variable changes *)
  assert (Hquiet : (forall i, existsb (keeps i) (v1 ++ h :: v2) = existsb (keeps i) (v1 ++ v2)) -> arr_of h = [] -> inv (PState (s_mem s) (s_objs s) (v1 ++ v2))).
  { intros HE' Ha. split; cbn.
    - exact W.
    - intros x i Hx. apply N, Hin, Hx.
    - intros i o Hx. apply V, Hin, Hx.
    - intros i o Eo. rewrite <- HE'. apply SF, Eo.
    - exists ab. rewrite <- (parts_same _ _ _ _ HE'). split; [|auto]. rewrite E1, !arrs_app. cbn. rewrite Ha. reflexivity. }
  assert (Hobj : forall i, (forall i', i' <> i -> keeps i' h = false) -> keeps i h = true -> arr_of h = [] -> hnum h = Some i ->
    exists m', (if existsb (keeps i) (v1 ++ v2) then ret tt else match nth_error (s_objs s) i with Some o => destroy o | None => ret tt end) (s_mem s) = Some (m', tt) /\
      inv (PState m' (s_objs s) (v1 ++ v2))).
  { intros i Hne Hk Ha Hn. destruct (existsb (keeps i) (v1 ++ v2)) eqn:EK.
    - exists (s_mem s). split; [reflexivity|]. apply Hquiet; [|exact Ha]. intros i'. destruct (Nat.eq_dec i' i) as [->|Hi]; [|apply HE, Hne, Hi].
      rewrite EK. rewrite existsb_app in *. cbn. rewrite Hk, orb_true_r. reflexivity.
    - assert (i < length (s_objs s)) as Hi by (apply (N h i); [apply in_or_app; right; left; reflexivity|exact Hn]).
      destruct (nth_error (s_objs s) i) as [o|] eqn:Eo; [|apply nth_error_None in Eo; lia].
      destruct (parts_split (v1 ++ h :: v2) (v1 ++ v2) (s_objs s) 0 i o Eo) as (R & H1 & H2); [intros i' Hi'; apply HE, Hne, Hi'|].
      cbn [Nat.add] in H1, H2. unfold part in H1, H2. rewrite EK in H2. rewrite existsb_app in H1. cbn in H1. rewrite Hk, orb_true_r in H1.
      destruct (t_destroy o [] (s_mem s) (R ++ ab) W) as (m' & [] & E & [W' G] & HP').
      { rewrite app_nil_r, P1, H1, <- app_assoc. reflexivity. }
      rewrite app_nil_r in HP'. exists m'. split; [exact E|]. split; cbn.
      + exact W'.
      + intros x j Hx. apply N, Hin, Hx.
      + intros j o' Hx. apply V, Hin, Hx.
      + intros j o' Ej. destruct (SF j o' Ej) as [L D]. split; [destruct G; lia|]. intros K.
        destruct (Nat.eq_dec j i) as [->|Hj]; [|apply (gone_grows _ _ _ G L), D; rewrite HE by (apply Hne, Hj); exact K].
        rewrite Eo in Ej. injection Ej as <-. intros Hh. destruct W as [ND _]. apply (Permutation_map k_id) in P1. apply (Permutation_NoDup P1) in ND.
        apply (has_perm _ _ _ HP') in Hh. unfold has in Hh.
        assert (NoDup (map k_id (own_live o ++ R ++ ab))) as ND'.
        { eapply Permutation_NoDup; [|exact ND]. apply Permutation_map. rewrite H1, <- app_assoc. reflexivity. }
        clear - ND' Hh. unfold own_live in ND'. cbn in ND'. inversion ND' as [|x l Hx Hl]; subst. apply Hx. clear - Hh.
        unfold own_dead in Hh. rewrite !map_app in *. cbn in Hh. destruct Hh as [Hh|Hh]; [right; left; exact Hh|]. right. right.
        rewrite !in_app_iff in *. destruct (is_nd (p_cls o)); cbn in *; tauto.
      + exists ab. split; [rewrite E1, !arrs_app; cbn; rewrite Ha; reflexivity|]. split; [exact F1|]. rewrite HP', H2, app_assoc. reflexivity. }
  destruct h as [i|a|i|i]; cbn [release].
  - apply (Hobj i); cbn; auto using Nat.eqb_refl. intros i' Hi'. apply Nat.eqb_neq. auto.
  - rewrite arrs_app in E1. cbn in E1. apply map_eq_app in E1 as (a1 & a2' & -> & Ea1 & Ea2).
    destruct a2' as [|b a2]; [discriminate|]. injection Ea2 as Eb Ea2. apply Forall_app in F1 as [F1 F2]. inversion F2 as [|x l Hb F3]; subst x l.
    destruct b as [b kb nb]. cbn in Eb, Hb. subst b kb.
    destruct (t_del a AMalloc nb [] (s_mem s) (parts (v1 ++ HArr a :: v2) 0 (s_objs s) ++ a1 ++ a2) W) as (m' & [] & E & [W' G] & HP').
    { rewrite P1. cbn. rewrite (app_assoc _ a1 a2), (app_assoc _ a1 (_ :: a2)). symmetry. apply Permutation_middle. }
    assert (forall i, existsb (keeps i) (v1 ++ HArr a :: v2) = existsb (keeps i) (v1 ++ v2)) as HE' by (intros i; apply HE; reflexivity).
    exists m'. split; [exact E|]. split; cbn.
    + exact W'.
    + intros x i Hx. apply N, Hin, Hx.
    + intros i o Hx. apply V, Hin, Hx.
    + intros i o Eo. destruct (SF i o Eo) as [L D]. split; [destruct G; lia|]. rewrite <- HE'. intros K. apply (gone_grows _ _ _ G L), D, K.
    + exists (a1 ++ a2). split; [rewrite arrs_app, map_app, Ea1, Ea2; reflexivity|]. split; [apply Forall_app; auto|].
      cbn in HP'. rewrite (parts_same _ _ _ _ HE') in HP'. exact HP'.
  - apply (Hobj i); cbn; auto using Nat.eqb_refl. intros i' Hi'. apply Nat.eqb_neq. auto.
  - exists (s_mem s). split; [reflexivity|]. apply Hquiet; [|reflexivity]. intros i'. apply HE. reflexivity.
Qed.

(** ** Steps *)
Lemma on_obj_inv s j f : inv s ->
  (forall i o R, In (HObj i) (s_vars s) -> nth_error (s_objs s) i = Some o -> Permutation (live (s_mem s)) (own_live o ++ R) ->
     exists m' r ab, f i o (s_mem s) = Some (m', r) /\ wfm m' /\ grows (s_mem s) m' /\ Permutation (live m') (ab ++ live (s_mem s)) /\
       match r with
       | None => ab = []
       | Some h => map k_id ab = arr_of h /\ Forall (fun b => k_kind b = AMalloc) ab /\
           (forall i', keeps i' h = true -> i' = i) /\ (forall i', hnum h = Some i' -> i' = i) /\ (forall i', h = HView i' -> is_nd (p_cls o) = true)
       end) ->
  exists s', on_obj s j f = Some s' /\ inv s' /\ s_objs s' = s_objs s.
Proof.
  intros I H. unfold on_obj. destruct (nth_error (s_vars s) j) as [[i|a|i|i]|] eqn:Ej; try (exists s; auto; fail).
  destruct (nth_error (s_objs s) i) as [o|] eqn:Eo; [|exists s; auto].
  pose proof (nth_error_In _ _ Ej) as Hi. assert (existsb (keeps i) (s_vars s) = true) as K by (apply keeps_in; auto).
  destruct (inv_obj s i o I Eo K) as (R & HR & _). destruct (H i o R Hi Eo HR) as (m' & r & ab & E & W & G & HP & Hr). rewrite E.
  destruct r as [h|].
  - destruct Hr as (H1 & H2 & H3 & H4 & H5). eexists. split; [reflexivity|]. split; [|reflexivity]. apply (inv_call s m' [h] ab I W G HP).
    + cbn. rewrite app_nil_r. exact H1.
    + exact H2.
    + intros i' Hk. cbn in Hk. rewrite orb_false_r in Hk. rewrite (H3 i' Hk). exact K.
    + intros h' i' [<-|[]] En. rewrite (H4 i' En). apply nth_error_Some. congruence.
    + intros i' o' [->|[]] Eo'. assert (i' = i) as -> by (apply H3; cbn; apply Nat.eqb_refl). rewrite Eo in Eo'. injection Eo' as <-. apply (H5 i eq_refl).
  - subst ab. eexists. split; [reflexivity|]. split; [|reflexivity]. rewrite <- (app_nil_r (s_vars s)). apply (inv_call s m' [] [] I W G HP); cbn; auto; intros; try discriminate; tauto.
Qed.
Lemma call_array s i o R c n (I : inv s) : nth_error (s_objs s) i = Some o -> Permutation (live (s_mem s)) (own_live o ++ R) ->
  triple (own_live o ++ R) c (fun F => Block F AMalloc n :: own_live o ++ R) ->
  exists m' r ab, (F <~ c ;; ret (Some (HArr F))) (s_mem s) = Some (m', r) /\ wfm m' /\ grows (s_mem s) m' /\ Permutation (live m') (ab ++ live (s_mem s)) /\
       match r with
       | None => ab = []
       | Some h => map k_id ab = arr_of h /\ Forall (fun b => k_kind b = AMalloc) ab /\
           (forall i', keeps i' h = true -> i' = i) /\ (forall i', hnum h = Some i' -> i' = i) /\ (forall i', h = HView i' -> is_nd (p_cls o) = true)
       end.
Proof.
  intros Eo HR Ht. destruct (Ht (s_mem s) [] (i_wf s I)) as (m' & F & E & [W G] & HP); [rewrite app_nil_r; exact HR|].
  exists m', (Some (HArr F)), [Block F AMalloc n]. unfold seqc. rewrite E. split; [reflexivity|]. split; [exact W|]. split; [exact G|].
  split; [rewrite HP, HR, app_nil_r; reflexivity|]. split; [reflexivity|]. split; [repeat constructor|]. repeat split; intros; discriminate.
Qed.
Lemma ause_has m a : has (live m) a -> ause a m = Some (m, tt).
Proof.
  intros H. unfold ause. destruct (find _ (live m)) eqn:E; [reflexivity|]. exfalso. apply in_map_iff in H as (b & Eb & Hb).
  apply (find_none _ _ E) in Hb. rewrite Eb, Nat.eqb_refl in Hb. discriminate.
Qed.
Lemma ause_none m a : ~ has (live m) a -> ause a m = None.
Proof.
  intros H. unfold ause. destruct (find _ (live m)) as [b|] eqn:E; [|reflexivity]. exfalso. apply H. apply find_some in E as [Hb E].
  apply Nat.eqb_eq in E. apply in_map_iff. eauto.
Qed.
Lemma inv_xla s i d n full : inv s -> existsb (keeps i) (s_vars s) = true ->
  exists s', pstep s (EXla i d n full) = Some s' /\ inv s' /\ s_objs s' = s_objs s /\ s_vars s' = s_vars s /\ Permutation (live (s_mem s')) (live (s_mem s)).
Proof.
  intros I K. assert (i < length (s_objs s)) as Hi.
  { apply keeps_in in K as [K|K]; eapply (i_num s I); eauto; reflexivity. }
  cbn. destruct (nth_error (s_objs s) i) as [o|] eqn:Eo; [|apply nth_error_None in Eo; lia].
  destruct (inv_obj s i o I Eo K) as (R & HR & HR'). destruct (t_xla o d n full (own_live o ++ R) (ho_own o R) (s_mem s) [] (i_wf s I)) as (m' & [] & E & [W G] & HP).
  { rewrite app_nil_r. exact HR. }
  rewrite app_nil_r in HP. rewrite E. eexists. split; [reflexivity|]. split; [|cbn; repeat split; apply HR', HP].
  rewrite <- (app_nil_r (s_vars s)). apply (inv_call s m' [] [] I W G); cbn; auto; intros; try discriminate; tauto.
Qed.
Lemma xla_undefined s i d n full : inv s -> existsb (keeps i) (s_vars s) = false -> pstep s (EXla i d n full) = None.
Proof.
  intros I K. cbn. destruct (nth_error (s_objs s) i) as [o|] eqn:Eo; [|reflexivity]. destruct (i_self s I i o Eo) as [_ D].
  unfold xlamem, nfill, xla1mem. destruct (is_nd (p_cls o)); unfold seqc; rewrite (ause_none _ _ (D K)); reflexivity.
Qed.
Definition new_cls (e : pevent) : list bclass := match e with ENew k _ _ _ _ _ => [k] | _ => [] end.
Lemma inv_step s e : inv s -> (forall N d n full, e = EXla N d n full -> existsb (keeps N) (s_vars s) = true) ->
  exists s', pstep s e = Some s' /\ inv s' /\ map p_cls (s_objs s') = map p_cls (s_objs s) ++ new_cls e.
Proof.
  intros I HX. assert (forall f j, (exists s', on_obj s j f = Some s' /\ inv s' /\ s_objs s' = s_objs s) ->
    exists s', on_obj s j f = Some s' /\ inv s' /\ map p_cls (s_objs s') = map p_cls (s_objs s) ++ []) as HO.
  { intros f j (s' & E1 & E2 & E3). exists s'. rewrite E3, app_nil_r. auto. }
  destruct e as [k dim numC m num numFull|j|j|j d n full|j|j|j|j|j|N d n full]; cbn [pstep new_cls].
  - destruct (inv_new s k dim numC m num numFull I) as (m' & o & E & Hk & _ & I'). rewrite E. eexists. split; [reflexivity|]. split; [exact I'|].
    cbn. rewrite map_app. cbn. rewrite Hk. reflexivity.
  - destruct (nth_error (s_vars s) j) as [h|] eqn:Ej; [|exists s; rewrite app_nil_r; auto].
    pose proof (nth_error_In _ _ Ej) as Hi. rewrite app_nil_r.
    assert (arr_of h = [] -> exists s', Some (PState (s_mem s) (s_objs s) (s_vars s ++ [h])) = Some s' /\ inv s' /\ map p_cls (s_objs s') = map p_cls (s_objs s)) as Hc.
    { intros Ha. eexists. split; [reflexivity|]. split; [|reflexivity]. apply (inv_call s (s_mem s) [h] [] I (i_wf s I) (grows_refl _)); cbn.
      - reflexivity.
      - rewrite Ha. reflexivity.
      - constructor.
      - intros i Hk. rewrite orb_false_r in Hk. apply existsb_exists. eauto.
      - intros h' i [<-|[]]. apply (i_num s I). exact Hi.
      - intros i o [->|[]]. apply (i_view s I). exact Hi. }
    destruct h; try (apply Hc; reflexivity). exists s. auto.
  - rewrite app_nil_r. destruct (nth_error (s_vars s) j) as [h|] eqn:Ej; [|exists s; auto].
    destruct (nth_drop _ _ _ Ej) as (v1 & v2 & EV & ED). rewrite ED. destruct (inv_release s v1 v2 h I EV) as (m' & E & I'). rewrite E.
    eexists. split; [reflexivity|]. split; [exact I'|reflexivity].
  - apply HO, (on_obj_inv s j _ I). intros i o R Hi Eo HR. apply (call_array s i o R _ (h_size o n full) I Eo HR). apply t_H, ho_own.
  - apply HO, (on_obj_inv s j _ I). intros i o R Hi Eo HR. destruct (is_elm (p_cls o)) eqn:Ee.
    + eapply (call_array s i o R _ _ I Eo HR). apply t_getW; [apply ho_own|exact Ee].
    + exists (s_mem s), None, []. cbn. split; [reflexivity|]. split; [apply (i_wf s I)|]. split; [apply grows_refl|]. split; reflexivity.
  - apply HO, (on_obj_inv s j _ I). intros i o R Hi Eo HR. destruct (is_elm (p_cls o)) eqn:Ee.
    + eapply (call_array s i o R _ _ I Eo HR). apply t_getB; [apply ho_own|exact Ee].
    + exists (s_mem s), None, []. cbn. split; [reflexivity|]. split; [apply (i_wf s I)|]. split; [apply grows_refl|]. split; reflexivity.
  - apply HO, (on_obj_inv s j _ I). intros i o R Hi Eo HR. unfold seqc.
    assert (has (live (s_mem s)) (p_self o)) as Hs by (apply (has_perm _ _ _ (Permutation_sym HR)); left; reflexivity).
    rewrite (ause_has _ _ Hs). destruct (is_nd (p_cls o)) eqn:En.
    + exists (s_mem s), (Some (HView i)), []. split; [reflexivity|]. split; [apply (i_wf s I)|]. split; [apply grows_refl|]. split; [reflexivity|].
      split; [reflexivity|]. split; [constructor|]. split; [intros i' Hk; cbn in Hk; apply Nat.eqb_eq in Hk; auto|]. split; [intros i' [= <-]; reflexivity|auto].
    + exists (s_mem s), None, []. split; [reflexivity|]. split; [apply (i_wf s I)|]. split; [apply grows_refl|]. split; reflexivity.
  - apply HO, (on_obj_inv s j _ I). intros i o R Hi Eo HR. unfold seqc.
    assert (has (live (s_mem s)) (p_self o)) as Hs by (apply (has_perm _ _ _ (Permutation_sym HR)); left; reflexivity).
    assert (has (live (s_mem s)) (p_cap o)) as Hc by (apply (has_perm _ _ _ (Permutation_sym HR)); right; right; left; reflexivity).
    rewrite (ause_has _ _ Hs), (ause_has _ _ Hc).
    exists (s_mem s), (Some (HCap i)), []. split; [reflexivity|]. split; [apply (i_wf s I)|]. split; [apply grows_refl|]. split; [reflexivity|].
    split; [reflexivity|]. split; [constructor|]. split; [discriminate|]. split; [intros i' [= <-]; reflexivity|discriminate].
  - exists s. rewrite app_nil_r. split; [|auto]. destruct (nth_error (s_vars s) j) as [[i|a|i|i]|] eqn:Ej; try reflexivity.
    + assert (has (live (s_mem s)) a) as Ha; [|rewrite (ause_has _ _ Ha); reflexivity].
      destruct (i_mem s I) as (ab & E1 & _ & HP). apply (has_perm _ _ _ (Permutation_sym HP)). unfold has. rewrite map_app, E1. apply in_or_app. right.
      apply in_flat_map. exists (HArr a). split; [apply (nth_error_In _ _ Ej)|left; reflexivity].
    + destruct (nth_error (s_objs s) i) as [o|] eqn:Eo; [|reflexivity]. pose proof (nth_error_In _ _ Ej) as Hi.
      destruct (inv_obj s i o I Eo) as (R & HR & _); [apply keeps_in; auto|].
      assert (has (live (s_mem s)) (p_c o)) as Ha; [|rewrite (ause_has _ _ Ha); reflexivity].
      apply (has_perm _ _ _ (Permutation_sym HR)). apply (h_nd _ _ (ho_own o R)). apply (i_view s I i o Hi Eo).
    + destruct (nth_error (s_objs s) i) as [o|] eqn:Eo; [|reflexivity].
      assert (has (live (s_mem s)) (p_cap o)) as Ha; [|rewrite (ause_has _ _ Ha); reflexivity].
      destruct (i_mem s I) as (ab & _ & _ & HP). destruct (parts_split (s_vars s) (s_vars s) (s_objs s) 0 i o Eo) as (R & H1 & _); [auto|].
      apply (has_perm _ _ _ (Permutation_sym HP)). unfold has. rewrite map_app. apply in_or_app. left.
      apply (has_perm _ _ _ (Permutation_sym H1)). unfold has. rewrite map_app. apply in_or_app. left. unfold part. destruct (existsb _ _); cbn; tauto.
  - specialize (HX N d n full eq_refl). destruct (inv_xla s N d n full I HX) as (s' & E & I' & Eo & _). exists s'. rewrite Eo, app_nil_r. auto.
Qed.
Lemma inv_run es : forall s s', inv s -> prun s es = Some s' -> inv s' /\ map p_cls (s_objs s') = map p_cls (s_objs s) ++ flat_map new_cls es.
Proof.
  induction es as [|e es IH]; intros s s' I E; [injection E as <-; rewrite app_nil_r; auto|]. cbn in E.
  destruct (pstep s e) as [s1|] eqn:E1; [|discriminate]. cbn in E.
  destruct (inv_step s e I) as (s2 & E2 & I2 & C2).
  { intros N d n full ->. destruct (existsb (keeps N) (s_vars s)) eqn:K; [reflexivity|]. rewrite (xla_undefined s N d n full I K) in E1. discriminate. }
  rewrite E1 in E2. injection E2 as <-. destruct (IH _ _ I2 E) as [I3 C3]. split; [exact I3|]. rewrite C3, C2, <- app_assoc. reflexivity.
Qed.
