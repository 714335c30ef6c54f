From Coq Require Import List Arith ZArith Bool Lia.
From Verif Require Import Base ProofBase ModelWeights SpecWeights.
Import ListNotations.

Section P.
Context {T O : Type} (Hf : list T -> list T -> O) (m : nat).
Implicit Types (h : heap T).

Lemma cell_entry h blk z : cell h blk z = entry h blk z.
Proof.
  unfold cell, entry. destruct (Z.ltb_spec z 0), (Z.leb_spec 0 z); try lia; [reflexivity|].
  cbn. destruct (nth_error h blk) as [l|] eqn:E; cbn.
  - rewrite (nth_error_nth h blk [] E). generalize (Z.to_nat z). clear.
    induction l as [|a l IH]; intros [|n]; cbn; auto.
  - rewrite (nth_overflow h []) by (apply nth_error_None; exact E). cbn. destruct (Z.to_nat z); reflexivity.
Qed.
Lemma vread_contents h v : vread h v = contents h v.
Proof. unfold vread, contents. apply mapM_ext. intros i _. rewrite cell_entry. f_equal. lia. Qed.

Lemma upd_map {X} (l : list X) i x : forall k,
  upd l i x = map (fun jy => if fst jy =? k + i then x else snd jy) (combine (seq k (length l)) l).
Proof.
  revert i. induction l as [|a l IH]; intros i k; [reflexivity|]. cbn [length seq combine map upd fst snd].
  destruct i as [|i].
  - rewrite Nat.add_0_r, Nat.eqb_refl. f_equal.
    assert (H : forall j, k < j -> l = map (fun jy => if fst jy =? k then x else snd jy) (combine (seq j (length l)) l)).
    { clear. induction l as [|b l IH]; intros j Hj; [reflexivity|]. cbn.
      destruct (Nat.eqb_spec j k); [lia|]. f_equal. apply IH. lia. }
    apply H. lia.
  - destruct (Nat.eqb_spec k (k + S i)); [lia|]. f_equal. rewrite (IH i (S k)).
    apply map_ext. intros [j y]. cbn. replace (S (k + i)) with (k + S i) by lia. reflexivity.
Qed.
Lemma map_same {X} (l : list X) : forall k, map (fun jy : nat * X => snd jy) (combine (seq k (length l)) l) = l.
Proof. induction l as [|a l IH]; intros k; cbn; [|f_equal]; auto. Qed.
Lemma poke_store h blk i x : poke h blk i x = store h blk i x.
Proof.
  unfold poke, store.
  assert (H : forall k, (match nth_error h blk with Some l => upd h blk (upd l i x) | None => h end)
    = map (fun bl => map (fun jy => if (fst bl =? k + blk) && (fst jy =? i) then x else snd jy)
                     (combine (seq 0 (length (snd bl))) (snd bl))) (combine (seq k (length h)) h)).
  { revert blk. induction h as [|l h IH]; intros blk k; [destruct blk; reflexivity|].
    destruct blk as [|blk]; cbn [nth_error length seq combine map fst snd upd].
    - rewrite Nat.add_0_r, Nat.eqb_refl. f_equal; [exact (upd_map l i x 0)|].
      assert (G : forall j, k < j -> h = map (fun bl : nat * list T => map (fun jy : nat * T => if (fst bl =? k) && (fst jy =? i) then x else snd jy)
                     (combine (seq 0 (length (snd bl))) (snd bl))) (combine (seq j (length h)) h)).
      { clear. induction h as [|b h IH]; intros j Hj; [reflexivity|]. cbn.
        destruct (Nat.eqb_spec j k); [lia|]. cbn. rewrite map_same. f_equal. apply IH. lia. }
      apply G. lia.
    - destruct (Nat.eqb_spec k (k + S blk)); [lia|]. cbn [andb]. rewrite map_same.
      specialize (IH blk (S k)).
      transitivity (l :: match nth_error h blk with Some l0 => upd h blk (upd l0 i x) | None => h end).
      { destruct (nth_error h blk); reflexivity. }
      f_equal. rewrite IH. apply map_ext. intros [j y]. cbn [fst snd]. replace (S k + blk) with (k + S blk) by lia. reflexivity. }
  exact (H 0).
Qed.

Lemma entry_store h blk i x b z :
  entry (store h blk i x) b z =
  match entry h b z with Some y => Some (if (b =? blk) && (Z.to_nat z =? i) then x else y) | None => None end.
Proof.
  rewrite <- poke_store, <- !cell_entry. unfold cell. destruct (z <? 0)%Z; [reflexivity|]. cbn.
  unfold poke.
  assert (U : forall X (l : list X) i x n, nth_error (upd l i x) n =
    match nth_error l n with Some y => Some (if n =? i then x else y) | None => None end).
  { clear. intros X l. induction l as [|a l IH]; intros i x n; [destruct n; reflexivity|].
    destruct i as [|i], n as [|n]; cbn; try reflexivity; [destruct (nth_error l n); reflexivity|apply IH]. }
  destruct (nth_error h blk) as [l|] eqn:E.
  - rewrite U. destruct (Nat.eqb_spec b blk) as [->|N].
    + rewrite E. cbn. apply U.
    + destruct (nth_error h b) as [l'|]; [|reflexivity]. cbn. destruct (nth_error l' _); reflexivity.
  - destruct (Nat.eqb_spec b blk) as [->|N].
    + rewrite E. reflexivity.
    + destruct (nth_error h b) as [l'|]; [|reflexivity]. cbn. destruct (nth_error l' _); reflexivity.
Qed.


Lemma raw_contig (h : heap T) v : v_str v = 1%Z -> vraw h v (v_len v) = vread h v.
Proof.
  intros Hs. unfold vraw, vread. apply mapM_ext. intros i _. rewrite Hs. f_equal. lia.
Qed.

Lemma cpp_weights ops : Forall contiguous ops -> forall h w b,
  cpp_run Hf m (CppSt h w b) ops = until_exit (spec_run Hf m (Sst h w b) ops).
Proof.
  induction ops as [|o ops IH]; intros Hc h w b; [reflexivity|].
  inversion Hc as [|o' ops' Ho Hops]; subst o' ops'. cbn [cpp_run spec_run].
  destruct o as [v|v| | | |blk i x]; cbn [cpp_step spec_step c_h c_w c_b s_h s_w s_b contiguous] in *.
  - destruct (Nat.eqb_spec (v_len v) m) as [E|E]; cbn [negb]; [|reflexivity].
    rewrite <- E, raw_contig by exact Ho. rewrite vread_contents. destruct (contents h v); cbn [until_exit]; f_equal; rewrite E; apply IH, Hops.
  - destruct (Nat.eqb_spec (v_len v) m) as [E|E]; cbn [negb]; [|reflexivity].
    rewrite <- E, raw_contig by exact Ho. rewrite vread_contents. destruct (contents h v); cbn [until_exit]; f_equal; rewrite E; apply IH, Hops.
  - cbn [until_exit]. f_equal. apply IH, Hops.
  - cbn [until_exit]. f_equal. apply IH, Hops.
  - cbn [until_exit]. f_equal. apply IH, Hops.
  - cbn [until_exit]. f_equal. rewrite poke_store. apply IH, Hops.
Qed.

Lemma mapM_mono {X Y} (f g : X -> option Y) l r :
  (forall x y, f x = Some y -> g x = Some y) -> mapM f l = Some r -> mapM g l = Some r.
Proof.
  intros H. revert r. induction l as [|x l IH]; intros r E; cbn in *; [exact E|].
  destruct (f x) as [y|] eqn:Ef; [|discriminate]. cbn in E. rewrite (H _ _ Ef). cbn.
  destruct (mapM f l) as [ys|]; [|discriminate]. cbn in E. rewrite (IH _ eq_refl). exact E.
Qed.

Lemma vread_app (h : heap T) e v l : vread h v = Some l -> vread (h ++ e) v = Some l.
Proof.
  unfold vread. apply mapM_mono. intros i y. unfold cell.
  destruct (_ <? 0)%Z; [discriminate|]. destruct (nth_error h (v_blk v)) as [bl|] eqn:E; [|discriminate].
  rewrite nth_error_app1 by (apply nth_error_Some; congruence). rewrite E. trivial.
Qed.

Lemma py_weights ops (h : heap T) : Forall not_poke ops -> Forall (readable h) ops ->
  forall e vw vb w b, vread h vw = Some w -> vread h vb = Some b ->
  py_run Hf m (PySt h vw vb) ops = spec_run Hf m (Sst (h ++ e) w b) ops.
Proof.
  induction ops as [|o ops IH]; intros Hp Hr e vw vb w b Hw Hb; [reflexivity|].
  inversion Hp as [|o' ops' Ho Hops]; subst o' ops'. inversion Hr as [|o' ops' Ro Rops]; subst o' ops'.
  cbn [py_run spec_run].
  destruct o as [v|v| | | |blk i x]; cbn [py_step spec_step p_h p_w p_b s_h s_w s_b readable not_poke] in *.
  - destruct (v_len v =? m); [|f_equal; apply IH; assumption].
    destruct Ro as (l & El). rewrite <- vread_contents in El. rewrite <- vread_contents, (vread_app h e v l El). f_equal. apply IH; assumption.
  - destruct (v_len v =? m); [|f_equal; apply IH; assumption].
    destruct Ro as (l & El). rewrite <- vread_contents in El. rewrite <- vread_contents, (vread_app h e v l El). f_equal. apply IH; assumption.
  - unfold py_get. rewrite Hw. f_equal. rewrite <- app_assoc. apply IH; assumption.
  - unfold py_get. rewrite Hb. f_equal. rewrite <- app_assoc. apply IH; assumption.
  - rewrite Hw, Hb. f_equal. apply IH; assumption.
  - contradiction.
Qed.
Lemma py_weights0 ops (h : heap T) vw vb w b : Forall not_poke ops -> Forall (readable h) ops ->
  contents h vw = Some w -> contents h vb = Some b ->
  py_run Hf m (PySt h vw vb) ops = spec_run Hf m (Sst h w b) ops.
Proof. intros ? ?. rewrite <- !vread_contents. intros. rewrite <- (app_nil_r h) at 2. apply py_weights; assumption. Qed.
(** the state after a history *)
Fixpoint py_end (s : pystate T) (ops : list (wop T)) : pystate T :=
  match ops with [] => s | o :: ops => py_end (fst (py_step Hf m s o)) ops end.
Lemma py_run_app ops ops' : forall s, py_run Hf m s (ops ++ ops') = py_run Hf m s ops ++ py_run Hf m (py_end s ops) ops'.
Proof.
  induction ops as [|o ops IH]; intros s; [reflexivity|]. cbn [app py_run py_end].
  destruct (py_step Hf m s o) as [s' r]. cbn. f_equal. apply IH.
Qed.
Lemma py_end_app ops o : forall s, py_end s (ops ++ [o]) = fst (py_step Hf m (py_end s ops) o).
Proof. induction ops as [|o' ops IH]; intros s; [reflexivity|]. cbn [app py_end]. apply IH. Qed.
Lemma py_end_eq ops h vw vb :
  let s := py_end (PySt h vw vb) ops in
  (forall b z, entry (p_h s) b z = now_entry h ops b z) /\ p_w s = last_w m ops vw /\ p_b s = last_b m ops vb.
Proof.
  induction ops as [|o ops IH] using rev_ind; cbn.
  - split; [|split; reflexivity]. intros b z. unfold now_entry. cbn. destruct (entry h b z); reflexivity.
  - rewrite py_end_app. destruct (py_end (PySt h vw vb) ops) as [h' w' b']. cbn in IH. destruct IH as (H1 & H2 & H3).
    unfold last_w, last_b, now_entry, written in *. rewrite !fold_left_app. cbn [fold_left].
    destruct o as [v|v| | | |blk i x]; cbn [py_step p_h p_w p_b fst].
    + destruct (v_len v =? m); cbn; repeat split; auto; intros b z; rewrite fold_left_app; apply H1.
    + destruct (v_len v =? m); cbn; repeat split; auto; intros b z; rewrite fold_left_app; apply H1.
    + repeat split; auto. intros b z; rewrite fold_left_app; apply H1.
    + repeat split; auto. intros b z; rewrite fold_left_app; apply H1.
    + repeat split; auto. intros b z; rewrite fold_left_app; apply H1.
    + repeat split; auto. intros b z. rewrite fold_left_app, poke_store, entry_store, H1. cbn [fold_left].
      destruct (entry h b z); [|reflexivity].
      rewrite (Nat.eqb_sym b blk), (Nat.eqb_sym _ i). destruct ((blk =? b) && (i =? Z.to_nat z)); reflexivity.
Qed.
Lemma py_current ops h vw vb :
  let w := now_contents h ops (last_w m ops vw) in
  let b := now_contents h ops (last_b m ops vb) in
  py_run Hf m (PySt h vw vb) (ops ++ [GetW; GetB; Eval]) =
  py_run Hf m (PySt h vw vb) ops ++
    [match w with Some l => Arr l | None => Fault end; match b with Some l => Arr l | None => Fault end;
     match w, b with Some w, Some b => Mtx (Hf w b) | _, _ => Fault end].
Proof.
  cbn zeta. rewrite py_run_app. f_equal. destruct (py_end_eq ops h vw vb) as (H1 & H2 & H3).
  destruct (py_end (PySt h vw vb) ops) as [h' w' b']. cbn in H1, H2, H3. subst w' b'.
  assert (R : forall v, vread h' v = now_contents h ops v).
  { intros v. rewrite vread_contents. unfold contents, now_contents. apply mapM_ext. intros i _. apply H1. }
  cbn [py_run py_step p_h p_w p_b fst]. unfold py_get. rewrite !R. reflexivity.
Qed.
End P.

Lemma c57_alias (Hf : list Z -> list Z -> Z) : exists h vw vb w b ops,
  contents h vw = Some w /\ contents h vb = Some b /\ Forall (readable h) ops /\ Forall contiguous ops /\
  py_run Hf 2 (PySt h vw vb) ops <> spec_run Hf 2 (Sst h w b) ops.
Proof.
  exists [[1; 2]; [3; 4]]%Z, (View 1 0 1 2), (View 1 0 1 2), [3; 4]%Z, [3; 4]%Z,
    [SetW (View 0 0 1 2); Poke 0 0 9%Z; GetW].
  repeat split; try reflexivity.
  - repeat constructor; cbn; eexists; reflexivity.
  - repeat constructor.
  - cbn. discriminate.
Qed.
Lemma c57_stride (Hf : list Z -> list Z -> Z) : exists h w b ops,
  Forall (readable h) ops /\ Forall not_poke ops /\
  cpp_run Hf 2 (CppSt h w b) ops <> until_exit (spec_run Hf 2 (Sst h w b) ops).
Proof.
  exists [[1; 2; 3; 4]]%Z, [0; 0]%Z, [0; 0]%Z, [SetW (View 0 0 2 2); GetW].
  repeat split.
  - repeat constructor; cbn; eexists; reflexivity.
  - repeat constructor.
  - cbn. discriminate.
Qed.
Lemma c57_exit (Hf : list Z -> list Z -> Z) : exists h w b ops,
  Forall (readable h) ops /\ Forall not_poke ops /\ Forall contiguous ops /\
  cpp_run Hf 2 (CppSt h w b) ops <> spec_run Hf 2 (Sst h w b) ops.
Proof.
  exists [[1; 2; 3; 4]]%Z, [0; 0]%Z, [0; 0]%Z, [SetW (View 0 0 1 3); GetW].
  repeat split.
  - repeat constructor; cbn; eexists; reflexivity.
  - repeat constructor.
  - repeat constructor.
  - cbn. discriminate.
Qed.
