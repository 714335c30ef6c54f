(** Proofs about the C++ object registry. *)
From Coq Require Import List Arith Bool Lia.
From Verif Require Import Base ModelRegistry.
Import ListNotations.

Section Reg.
Context {P : Type}.

Definition inv (s : reg P) : Prop :=
  r_next s = length (r_cont s) /\
  forall a o, r_heap s a = Some o -> exists n, o_id o = Some n /\ nth_error (r_cont s) n = Some a.

(** construction of any class registers the new object once, under the next number *)
Lemma construct k a p (s : reg P) :
  fold_left (run_ctor a) (ctors k) (Reg (r_next s) (r_cont s) (heap_set (r_heap s) a (Some (Obj None p)))) =
  Reg (S (r_next s)) (r_cont s ++ [a])
      (heap_set (heap_set (r_heap s) a (Some (Obj None p))) a (Some (Obj (Some (r_next s)) p))).
Proof.
  assert (E : heap_set (r_heap s) a (Some (Obj None p)) a = Some (Obj None p)) by (unfold heap_set; rewrite Nat.eqb_refl; reflexivity).
  destruct k; cbn [ctors fold_left run_ctor r_heap r_next r_cont]; rewrite E; reflexivity.
Qed.

Lemma inv_step s op s' : inv s -> reg_step s op = Some s' -> inv s'.
Proof.
  intros [Hn Hh] H. destruct op as [k a p|a]; cbn [reg_step] in H.
  - destruct (r_heap s a) eqn:Ea; [discriminate|]. rewrite construct in H. injection H as <-.
    split; cbn [r_next r_cont r_heap]; [rewrite app_length; cbn; lia|].
    intros a' o. unfold heap_set. destruct (Nat.eqb_spec a' a) as [->|Ha].
    + intros E; injection E as <-. cbn [o_id]. eexists; split; [reflexivity|].
      rewrite Hn, nth_error_app2, Nat.sub_diag by lia. reflexivity.
    + intros E. destruct (Hh _ _ E) as (n & En & Ec). exists n. split; [exact En|].
      rewrite nth_error_app1; [exact Ec|]. apply nth_error_Some. congruence.
  - destruct (r_heap s a) eqn:Ea; [|discriminate]. injection H as <-.
    split; cbn [r_next r_cont r_heap]; [exact Hn|].
    intros a' o'. unfold heap_set. destruct (Nat.eqb_spec a' a) as [->|Ha]; [discriminate|]. apply Hh.
Qed.

Lemma inv_run h : forall s s', inv s -> reg_run s h = Some s' -> inv s'.
Proof.
  induction h as [|op h IH]; intros s s' Hi H; cbn in H.
  - injection H as <-. exact Hi.
  - destruct (reg_step s op) as [s1|] eqn:E; cbn [bind] in H; [|discriminate].
    apply (IH s1); [apply (inv_step _ _ _ Hi E)|exact H].
Qed.

Lemma inv0 : inv reg0. Proof. split; [reflexivity|]. discriminate. Qed.

Lemma c16 (h : list (rop P)) s a o : reg_run reg0 h = Some s -> r_heap s a = Some o ->
  exists n, o_id o = Some n /\ dispatch s n = Some o /\
    forall a' o', r_heap s a' = Some o' -> o_id o' = Some n -> a' = a.
Proof.
  intros H Ha. destruct (inv_run h _ _ inv0 H) as [_ Hh]. destruct (Hh a o Ha) as (n & En & Ec).
  exists n. split; [exact En|]. split.
  - unfold dispatch. rewrite Ec. exact Ha.
  - intros a' o' Ha' En'. destruct (Hh a' o' Ha') as (n' & En2 & Ec'). congruence.
Qed.

(** an object keeps its identity: whatever is constructed or deleted afterwards, as long as it is not deleted *)
Lemma c16_stable (h : list (rop P)) : forall s s' a o, r_heap s a = Some o ->
  (forall b, In (Delete b) h -> b <> a) -> reg_run s h = Some s' -> r_heap s' a = Some o.
Proof.
  induction h as [|op h IH]; intros s s' a o Ha Hd H; cbn in H.
  - injection H as <-. exact Ha.
  - destruct (reg_step s op) as [s1|] eqn:E; cbn [bind] in H; [|discriminate].
    apply (IH s1 s'); [|intros b Hb; apply Hd; right; exact Hb|exact H].
    destruct op as [k b p|b]; cbn [reg_step] in E.
    + destruct (r_heap s b) eqn:Eb; [discriminate|]. rewrite construct in E. injection E as <-.
      cbn [r_heap]. unfold heap_set. destruct (Nat.eqb_spec a b) as [->|]; [congruence|exact Ha].
    + destruct (r_heap s b) eqn:Eb; [|discriminate]. injection E as <-. cbn [r_heap]. unfold heap_set.
      destruct (Nat.eqb_spec a b) as [->|]; [|exact Ha]. exfalso. apply (Hd b); [left; reflexivity|reflexivity].
Qed.
Lemma c16_forever (h h' : list (rop P)) s s' a o : reg_run reg0 h = Some s -> r_heap s a = Some o ->
  (forall b, In (Delete b) h' -> b <> a) -> reg_run s h' = Some s' ->
  exists n, o_id o = Some n /\ dispatch s n = Some o /\ dispatch s' n = Some o.
Proof.
  intros H Ha Hd H'. pose proof (c16_stable h' s s' a o Ha Hd H') as Ha'.
  destruct (c16 h s a o H Ha) as (n & En & Ed & _). exists n. split; [exact En|]. split; [exact Ed|].
  assert (Hi : inv s') by (apply (inv_run h' s); [apply (inv_run h _ _ inv0 H)|exact H']).
  destruct Hi as [_ Hh]. destruct (Hh a o Ha') as (n' & En' & Ec). unfold dispatch.
  assert (n' = n) by congruence. subst n'. rewrite Ec. exact Ha'.
Qed.
(** every construction order is possible: constructing objects at fresh addresses never fails *)
Lemma new_ok (s : reg P) k a p : r_heap s a = None -> exists s', reg_step s (New k a p) = Some s'.
Proof. intros H. cbn. rewrite H. eexists; reflexivity. Qed.
End Reg.
