(** Lemmas about loops, buffers and lists of Base.v. *)
From Coq Require Import List Arith ZArith Lia Bool.
From Verif Require Import Base.
Import ListNotations.

Lemma bind_some {X Y} (a : option X) (f : X -> option Y) y :
  bind a f = Some y <-> exists x, a = Some x /\ f x = Some y.
Proof.
  destruct a as [x|]; cbn; split.
  - intros H; exists x; auto.
  - intros (x' & H1 & H2); congruence.
  - discriminate.
  - intros (x' & H1 & _); discriminate.
Qed.

(** ** mapM *)
Lemma mapM_some_map {X Y} (f : X -> option Y) (g : X -> Y) l :
  (forall x, In x l -> f x = Some (g x)) -> mapM f l = Some (map g l).
Proof.
  induction l as [|x l IH]; intros H; [reflexivity|].
  cbn. rewrite (H x (or_introl eq_refl)). cbn.
  rewrite IH by (intros y Hy; apply H; right; exact Hy). reflexivity.
Qed.

Lemma mapM_length {X Y} (f : X -> option Y) l r : mapM f l = Some r -> length r = length l.
Proof.
  revert r; induction l as [|x l IH]; cbn; intros r H; [injection H as <-; reflexivity|].
  apply bind_some in H as (y & Hy & H). apply bind_some in H as (ys & Hys & H).
  injection H as <-. cbn. f_equal. apply IH, Hys.
Qed.

Lemma mapM_nth {X Y} (f : X -> option Y) l r i x :
  mapM f l = Some r -> nth_error l i = Some x -> exists y, f x = Some y /\ nth_error r i = Some y.
Proof.
  revert r i; induction l as [|a l IH]; cbn; intros r i H Hi; [destruct i; discriminate|].
  apply bind_some in H as (y & Hy & H). apply bind_some in H as (ys & Hys & H).
  injection H as <-. destruct i as [|i]; cbn in Hi.
  - injection Hi as ->. exists y; auto.
  - apply (IH _ _ Hys Hi).
Qed.

Lemma mapM_ext {X Y} (f g : X -> option Y) l :
  (forall x, In x l -> f x = g x) -> mapM f l = mapM g l.
Proof.
  induction l as [|x l IH]; intros H; [reflexivity|].
  cbn. rewrite (H x (or_introl eq_refl)), IH; [reflexivity|].
  intros y Hy; apply H; right; exact Hy.
Qed.

Lemma mapM_none {X Y} (f : X -> option Y) l x : In x l -> f x = None -> mapM f l = None.
Proof.
  induction l as [|a l IH]; cbn; intros Hin Hx; [easy|].
  destruct Hin as [->|Hin].
  - rewrite Hx. reflexivity.
  - destruct (f a); cbn; [|reflexivity]. rewrite (IH Hin Hx). reflexivity.
Qed.

Lemma mapM_map {X Y Z} (f : Y -> option Z) (g : X -> Y) l :
  mapM f (map g l) = mapM (fun x => f (g x)) l.
Proof. induction l as [|x l IH]; cbn; [reflexivity|]. rewrite IH. reflexivity. Qed.

(** ** loops *)
Lemma iter_inv {S} (P : nat -> S -> Prop) (body : nat -> S -> option S) n :
  forall lo s, P lo s ->
  (forall k s, lo <= k < lo + n -> P k s -> exists s', body k s = Some s' /\ P (Datatypes.S k) s') ->
  exists s', iter_ n lo body s = Some s' /\ P (lo + n) s'.
Proof.
  induction n as [|n IH]; intros lo s H0 Hstep.
  - exists s; split; [reflexivity|]. rewrite Nat.add_0_r; exact H0.
  - destruct (Hstep lo s) as (s1 & H1 & HP1); [lia|exact H0|].
    destruct (IH (Datatypes.S lo) s1 HP1) as (s2 & H2 & HP2).
    { intros k t Hk Ht; apply Hstep; [lia|exact Ht]. }
    exists s2; split.
    + cbn. rewrite H1. cbn. exact H2.
    + replace (lo + Datatypes.S n) with (Datatypes.S lo + n) by lia. exact HP2.
Qed.

Lemma for_inv {S} (P : nat -> S -> Prop) (body : nat -> S -> option S) lo hi s :
  lo <= hi -> P lo s ->
  (forall k s, lo <= k < hi -> P k s -> exists s', body k s = Some s' /\ P (Datatypes.S k) s') ->
  exists s', for_ lo hi body s = Some s' /\ P hi s'.
Proof.
  intros Hle H0 Hstep. unfold for_.
  destruct (iter_inv P body (hi - lo) lo s H0) as (s' & H1 & H2).
  { intros k t Hk Ht; apply Hstep; [lia|exact Ht]. }
  exists s'; split; [exact H1|]. replace hi with (lo + (hi - lo)) by lia. exact H2.
Qed.

Lemma for_nil {S} lo hi (body : nat -> S -> option S) s : hi <= lo -> for_ lo hi body s = Some s.
Proof. intros H; unfold for_; replace (hi - lo) with 0 by lia; reflexivity. Qed.

(** ** buffers *)
Lemma brd_in {T} (b : buf T) i : i < blen b -> brd b i = bcell b i.
Proof. intros H; unfold brd. destruct (Nat.ltb_spec i (blen b)); [reflexivity|lia]. Qed.

Lemma bwr_in {T} (b : buf T) i v : i < blen b ->
  bwr b i v = Some (Buf (blen b) (fun j => if j =? i then Some v else bcell b j)).
Proof. intros H; unfold bwr. destruct (Nat.ltb_spec i (blen b)); [reflexivity|lia]. Qed.

(** Cells below [n] of a row hold the values of [G]. *)
Definition holds {T} (b : buf T) (n : nat) (G : nat -> T) : Prop :=
  forall k, k < n -> bcell b k = Some (G k).

Lemma bto_list_holds {T} (b : buf T) G :
  holds b (blen b) G -> bto_list b = Some (map G (seq 0 (blen b))).
Proof.
  intros H. unfold bto_list. apply mapM_some_map.
  intros k Hk%in_seq. rewrite brd_in by lia. apply H. lia.
Qed.

(** ** row-major matrices in a buffer *)
Lemma idx_inj m j k j' k' : k < m -> k' < m -> m * j + k = m * j' + k' -> j = j' /\ k = k'.
Proof.
  intros Hk Hk' H. assert (j = j') by nia. subst. lia.
Qed.
Lemma idx_lt m n j k : j < n -> k < m -> m * j + k < m * n.
Proof. intros; nia. Qed.

(** [b] holds an [n] by [m] matrix whose cell in row [j], column [k] is [G j k]. *)
Definition bmat {T} (b : buf T) (n m : nat) (G : nat -> nat -> option T) : Prop :=
  blen b = m * n /\ forall j k, j < n -> k < m -> bcell b (m * j + k) = G j k.

Lemma bmat_rd {T} (b : buf T) n m G j k : bmat b n m G -> j < n -> k < m -> brd b (m * j + k) = G j k.
Proof.
  intros [Hl H] Hj Hk. rewrite brd_in; [auto|]. rewrite Hl. apply idx_lt; assumption.
Qed.

Lemma bmat_new {T} n m : @bmat T (bnew (n * m)) n m (fun _ _ => None).
Proof. split; [cbn; lia|reflexivity]. Qed.

Lemma bmat_ext {T} (b : buf T) n m G G' :
  bmat b n m G -> (forall j k, j < n -> k < m -> G j k = G' j k) -> bmat b n m G'.
Proof. intros [Hl H] He; split; [exact Hl|]. intros; rewrite H; auto. Qed.

Lemma bmat_wr {T} (b : buf T) n m G j k v : bmat b n m G -> j < n -> k < m ->
  exists b', bwr b (m * j + k) v = Some b' /\
    bmat b' n m (fun j' k' => if (j' =? j) && (k' =? k) then Some v else G j' k').
Proof.
  intros [Hl H] Hj Hk. rewrite bwr_in by (rewrite Hl; apply idx_lt; assumption).
  eexists; split; [reflexivity|]. split; [exact Hl|].
  intros j' k' Hj' Hk'. cbn.
  destruct (Nat.eqb_spec (m * j' + k') (m * j + k)) as [He|He].
  - destruct (idx_inj m j' k' j k Hk' Hk He) as [-> ->].
    rewrite !Nat.eqb_refl. reflexivity.
  - destruct (Nat.eqb_spec j' j) as [->|]; [|cbn; auto].
    destruct (Nat.eqb_spec k' k) as [->|]; [lia|cbn; auto].
Qed.

(** A loop over the rows that fills column [k]. *)
Lemma for_col {T} n m k (V : nat -> T) (body : nat -> buf T -> option (buf T)) (b : buf T) G :
  k < m -> bmat b n m G ->
  (forall j b', j < n -> bmat b' n m (fun j' k' => if (j' <? j) && (k' =? k) then Some (V j') else G j' k') ->
     body j b' = bwr b' (m * j + k) (V j)) ->
  exists b', for_ 0 n body b = Some b' /\
     bmat b' n m (fun j' k' => if k' =? k then Some (V j') else G j' k').
Proof.
  intros Hk Hb Hbody.
  destruct (for_inv (fun j b' => bmat b' n m
      (fun j' k' => if (j' <? j) && (k' =? k) then Some (V j') else G j' k')) body 0 n b)
    as (b' & H1 & H2).
  - lia.
  - eapply bmat_ext; [exact Hb|]. intros; reflexivity.
  - intros j b' Hj Hb'. rewrite (Hbody j b') by (lia || exact Hb').
    destruct (bmat_wr b' n m _ j k (V j) Hb') as (b'' & H1 & H2); [lia|exact Hk|].
    exists b''; split; [exact H1|]. eapply bmat_ext; [exact H2|].
    intros j' k' Hj' Hk'; cbv beta.
    destruct (Nat.eqb_spec j' j) as [->|Hne]; cbn [andb].
    + destruct (Nat.eqb_spec k' k); cbn [andb].
      * replace (j <? S j) with true by (symmetry; apply Nat.ltb_lt; lia). reflexivity.
      * rewrite !andb_false_r. reflexivity.
    + destruct (Nat.ltb_spec j' j), (Nat.ltb_spec j' (S j)); try lia; reflexivity.
  - exists b'; split; [exact H1|]. eapply bmat_ext; [exact H2|].
    intros j' k' Hj' Hk'; cbv beta. destruct (Nat.ltb_spec j' n); [reflexivity|lia].
Qed.

Lemma buf_matrix_bmat {T} (b : buf T) n m (G : nat -> nat -> T) :
  bmat b n m (fun j k => Some (G j k)) ->
  buf_matrix b n m = Some (map (fun j => map (G j) (seq 0 m)) (seq 0 n)).
Proof.
  intros H. unfold buf_matrix. apply mapM_some_map. intros j Hj%in_seq.
  apply mapM_some_map. intros k Hk%in_seq.
  rewrite (bmat_rd b n m _ j k H) by lia. reflexivity.
Qed.

(** ** numbered lists *)
Lemma map_nth_seq {T} (l : list T) d : map (fun i => nth i l d) (seq 0 (length l)) = l.
Proof.
  induction l as [|a l IH]; [reflexivity|].
  cbn. f_equal. rewrite <- seq_shift, map_map. exact IH.
Qed.
Lemma map_seq_nth {X Y} (f : X -> Y) (l : list X) d :
  map (fun i => f (nth i l d)) (seq 0 (length l)) = map f l.
Proof.
  rewrite <- (map_nth_seq l d) at 2. rewrite map_map. reflexivity.
Qed.
