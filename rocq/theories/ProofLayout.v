(** Proofs for C75: what the C++ constructors see of strided arrays; H with bad lists of removed functions. *)
From Coq Require Import Arith List Bool ZArith Lia.
From Verif Require Import Base Numbers ModelBFPy SpecBasis ModelBFCpp ProofBase ProofBFCpp ProofH ModelELM ModelND ModelNELM ModelWeights ModelLayout SpecLayout.
Import ListNotations.

Lemma mapM_nth {A B} (f : A -> option B) (l : list A) (l' : list B) : length l' = length l ->
  (forall i a b, nth_error l i = Some a -> nth_error l' i = Some b -> f a = Some b) -> mapM f l = Some l'.
Proof.
  revert l'. induction l as [|a l IH]; intros [|b l'] Hl H; try discriminate; [reflexivity|]. cbn [mapM].
  rewrite (H 0 a b eq_refl eq_refl). cbn [bind]. rewrite (IH l'); [reflexivity|cbn in Hl; lia|].
  intros i a' b' H1 H2. exact (H (S i) a' b' H1 H2).
Qed.
Lemma nth_seq n i a : nth_error (seq 0 n) i = Some a -> a = i /\ i < n.
Proof.
  intros H. assert (i < n) as Hi by (rewrite <- (seq_length n 0); apply nth_error_Some; congruence).
  rewrite (nth_error_nth' _ 0), seq_nth in H by (rewrite ?seq_length; exact Hi). injection H as <-. auto.
Qed.
Lemma stored_cell {T} (h : heap T) blk i x : stored h blk i x -> cell h blk i = Some x.
Proof.
  intros [H0 (l & E & E')]. unfold cell. destruct (Z.ltb_spec i 0); [lia|]. rewrite E. exact E'.
Qed.
Lemma is_array_read {T} (h : heap T) v l : is_array h v l -> vread h v = Some l.
Proof.
  intros [Hl H]. unfold vread. apply mapM_nth; [rewrite seq_length; exact Hl|].
  intros i a x Ha Hx. apply nth_seq in Ha as [-> _]. apply stored_cell, H, Hx.
Qed.
Lemma is_array_raw {T} (h : heap T) v l : is_array h v l -> v_str v = 1%Z \/ v_len v <= 1 -> vraw h v (v_len v) = Some l.
Proof.
  intros [Hl H] Hc. unfold vraw. apply mapM_nth; [rewrite seq_length; exact Hl|].
  intros i a x Ha Hx. apply nth_seq in Ha as [-> Hi]. apply stored_cell. specialize (H i x Hx).
  destruct Hc as [Hs|Hs]; [rewrite Hs in H; replace (v_off v + Z.of_nat i)%Z with (v_off v + Z.of_nat i * 1)%Z by lia; exact H|].
  assert (i = 0) by lia. subst i. cbn in *. rewrite Z.add_0_r in *. exact H.
Qed.
Lemma plain1_ok {T} (h : heap T) v l same : is_array h v l -> same = false \/ v_str v = 1%Z \/ v_len v <= 1 ->
  plain1 h v same = Some l.
Proof.
  intros H Hc. unfold plain1. destruct same; [|apply is_array_read, H]. destruct Hc as [Hc|Hc]; [discriminate|]. apply is_array_raw; assumption.
Qed.
Lemma cstyle1_ok {T} (h : heap T) v l same : is_array h v l -> cstyle1 h v same = Some l.
Proof.
  intros H. unfold cstyle1. destruct (same && _) eqn:E; [|apply is_array_read, H]. apply andb_true_iff in E as [_ E].
  apply is_array_raw; [exact H|]. apply orb_true_iff in E as [E|E]; [left; apply Z.eqb_eq, E|right; apply Nat.leb_le, E].
Qed.

(** ** Two dimensions *)
Lemma is_array2_read {T} (h : heap T) v M : is_array2 h v M -> vread2 h v = Some M.
Proof.
  intros (Hl & Hr & H). unfold vread2. apply mapM_nth; [rewrite seq_length; exact Hl|].
  intros i a r Ha Hx. apply nth_seq in Ha as [-> _]. apply mapM_nth.
  - rewrite seq_length. rewrite Forall_forall in Hr. apply Hr. apply nth_error_In in Hx. exact Hx.
  - intros j a x Ha Hj. apply nth_seq in Ha as [-> _]. apply stored_cell, (H i j r x Hx Hj).
Qed.
Lemma nth_concat {T} c (M : list (list T)) : Forall (fun r => length r = c) M -> forall k x, nth_error (concat M) k = Some x ->
  exists r, nth_error M (k / c) = Some r /\ nth_error r (k mod c) = Some x /\ 0 < c.
Proof.
  induction 1 as [|r M Hr HM IH]; intros k x H; [destruct k; discriminate|]. cbn [concat] in H.
  destruct (Nat.lt_ge_cases k (length r)) as [Hk|Hk].
  - rewrite nth_error_app1 in H by exact Hk. exists r. rewrite Nat.div_small, Nat.mod_small by lia. cbn. repeat split; [exact H|lia].
  - rewrite nth_error_app2 in H by exact Hk. destruct (IH _ _ H) as (r' & E1 & E2 & Hc). exists r'. rewrite Hr in *.
    assert (k = (k - c) + 1 * c) as Ek by lia.
    rewrite Ek, Nat.div_add, Nat.mod_add by lia. rewrite Nat.add_1_r. repeat split; assumption.
Qed.
Lemma concat_length_c {T} c (M : list (list T)) : Forall (fun r => length r = c) M -> length (concat M) = length M * c.
Proof. induction 1; cbn; [reflexivity|]. rewrite app_length. lia. Qed.
Lemma chop_concat {T} c (M : list (list T)) : Forall (fun r => length r = c) M -> chop (length M) c (concat M) = M.
Proof.
  unfold chop. induction 1 as [|r M Hr HM IH]; [reflexivity|]. cbn [length seq map concat]. f_equal.
  - cbn. rewrite firstn_app, Hr, Nat.sub_diag, firstn_O, app_nil_r, <- Hr. apply firstn_all.
  - rewrite <- seq_shift, map_map. rewrite <- IH at 2. apply map_ext. intros i. cbn [Nat.mul].
    rewrite skipn_app, Hr, Nat.add_comm. replace (i * c + c - c) with (i * c) by lia.
    rewrite skipn_all2 by lia. reflexivity.
Qed.
Lemma is_array2_raw {T} (h : heap T) v M : is_array2 h v M -> contiguous2 v = true ->
  vraw h (View (w_blk v) (w_off v) 1 (w_n0 v * w_n1 v)) (w_n0 v * w_n1 v) = Some (concat M).
Proof.
  intros (Hl & Hr & H) Hc. unfold vraw. apply mapM_nth; [rewrite seq_length, (concat_length_c _ _ Hr), Hl; reflexivity|].
  intros k a x Ha Hx. apply nth_seq in Ha as [-> Hk]. cbn [v_blk v_off]. apply stored_cell.
  destruct (nth_concat _ _ Hr k x Hx) as (r & E1 & E2 & Hp). specialize (H _ _ r x E1 E2).
  replace (w_off v + Z.of_nat k)%Z with (w_off v + Z.of_nat (k / w_n1 v) * w_s0 v + Z.of_nat (k mod w_n1 v) * w_s1 v)%Z; [exact H|].
  pose proof (Nat.div_mod k (w_n1 v) ltac:(lia)) as Ek. pose proof (Nat.mod_upper_bound k (w_n1 v) ltac:(lia)) as Hm.
  assert (k / w_n1 v < w_n0 v) as Hd by (apply Nat.div_lt_upper_bound; lia).
  unfold contiguous2 in Hc. apply orb_true_iff in Hc as [Hc|Hc]; [apply Nat.eqb_eq in Hc; lia|].
  apply andb_true_iff in Hc as [H1 H0].
  assert (Z.of_nat (k mod w_n1 v) * w_s1 v = Z.of_nat (k mod w_n1 v))%Z as ->.
  { apply orb_true_iff in H1 as [H1|H1]; [apply Z.eqb_eq in H1; rewrite H1; lia|]. apply Nat.eqb_eq in H1. replace (k mod w_n1 v) with 0 by lia. lia. }
  assert (Z.of_nat (k / w_n1 v) * w_s0 v = Z.of_nat (k / w_n1 v * w_n1 v))%Z as ->; [|lia].
  apply orb_true_iff in H0 as [H0|H0]; [apply Z.eqb_eq in H0; rewrite H0; lia|]. apply Nat.eqb_eq in H0. replace (k / w_n1 v) with 0 by lia. lia.
Qed.
Lemma cstyle2_ok {T} (h : heap T) v M same : is_array2 h v M -> cstyle2 h v same = Some (concat M).
Proof.
  intros H. unfold cstyle2. destruct (same && _) eqn:E.
  - apply andb_true_iff in E as [_ E]. apply is_array2_raw; assumption.
  - rewrite (is_array2_read _ _ _ H). reflexivity.
Qed.
(** rows first in memory: not Fortran order *)
Lemma plain2_ok {T} (h : heap T) v M (same : bool) : is_array2 h v M ->
  (if same then contiguous2 v = true else (Z.abs (w_s1 v) <= Z.abs (w_s0 v))%Z) -> plain2 h v same = Some (concat M).
Proof.
  intros H Hc. unfold plain2. destruct same; [apply is_array2_raw; assumption|].
  destruct (Z.ltb_spec (Z.abs (w_s0 v)) (Z.abs (w_s1 v))); [lia|]. rewrite (is_array2_read _ _ _ H). reflexivity.
Qed.
Lemma is_array2_chop {T} (h : heap T) v M : is_array2 h v M -> chop (w_n0 v) (w_n1 v) (concat M) = M.
Proof. intros (Hl & Hr & _). rewrite <- Hl. apply chop_concat, Hr. Qed.

(** ** H and lists of removed functions that are not lists of distinct functions *)
Lemma for_post {S} (P : nat -> S -> Prop) (body : nat -> S -> option S) lo hi s s' :
  lo <= hi -> P lo s -> (forall k s s', lo <= k < hi -> P k s -> body k s = Some s' -> P (1 + k) s') ->
  for_ lo hi body s = Some s' -> P hi s'.
Proof.
  intros Hle Hs Hb. unfold for_. remember (hi - lo) as n eqn:En. revert lo s Hle Hs Hb En.
  induction n as [|n IH]; intros lo s Hle Hs Hb En H; cbn [iter_] in H.
  - injection H as <-. replace hi with lo by lia. exact Hs.
  - destruct (body lo s) as [s1|] eqn:E; [|discriminate]. cbn [bind] in H.
    apply (IH (1 + lo) s1); [lia| | |lia|exact H].
    + apply (Hb lo s); [lia|exact Hs|exact E].
    + intros k t t' Hk. apply Hb. lia.
Qed.
Lemma emit_overflow {T} (A : Ops T) nC m n mo s dark (F F' : buf T) : 0 < n -> blen F = mo * n ->
  cpp_emit A nC m n mo s false dark F = Some F' -> length (keptc nC m) <= mo.
Proof.
  intros Hn Hl H. unfold cpp_emit in H. destruct (for_ _ _ _ _) as [[i b]|] eqn:E; [|discriminate]. clear H.
  apply (for_post (fun j (st : nat * buf T) => fst st = length (keptc nC j) /\ blen (snd st) = mo * n /\ length (keptc nC j) <= mo)) in E;
    [apply E|lia|cbn; lia|].
  clear E. intros j [k b1] [k' b2] Hj (Hk & Hb & Hle) E. cbn [fst snd] in *. subst k.
  rewrite keptc_S. destruct (in_nC nC j) eqn:Ein.
  { injection E as <- <-. rewrite app_nil_r. auto. }
  destruct (for_ 0 n _ b1) as [b3|] eqn:E3; [|discriminate]. cbn [bind] in E. injection E as <- <-.
  rewrite app_length. cbn [length].
  assert (blen b3 = mo * n /\ (0 < n -> length (keptc nC j) < mo)) as [L3 H3].
  { apply (for_post (fun k b => blen b = mo * n /\ (n <= k -> 0 < n -> length (keptc nC j) < mo))) in E3; [split; [apply E3|apply E3; lia]|lia|split; [exact Hb|lia]|].
    clear E3; intros k b4 b4' Hk [Lb _] Eb. destruct (brd dark _) as [v|]; [|discriminate]. cbn [bind] in Eb. unfold bwr in Eb.
    destruct (Nat.ltb_spec (mo * k + length (keptc nC j)) (blen b4)) as [Hlt|]; [|discriminate]. injection Eb as <-. cbn [blen]. split; [exact Lb|].
    intros Hk' _. assert (k = n - 1) by lia. subst k. rewrite Lb in Hlt. nia. }
  specialize (H3 Hn). cbn [fst snd]. repeat split; lia.
Qed.
Lemma removed_count nC m : length (filter (in_nC nC) (seq 0 m)) + length (keptc nC m) = m.
Proof.
  induction m as [|m IH]; [reflexivity|]. rewrite keptc_S, seq_S, filter_app. cbn [filter Nat.add]. rewrite !app_length.
  destruct (in_nC nC m); cbn [length]; lia.
Qed.
Lemma kept_valid nC m : length nC <= m -> length (keptc nC m) <= m - length nC -> valid_nC nC m.
Proof.
  intros Hm Hk. pose proof (removed_count nC m) as Hc. set (r := filter (in_nC nC) (seq 0 m)) in *.
  assert (NoDup (map Z.of_nat r)) as Hr.
  { apply FinFun.Injective_map_NoDup; [intros x y H; lia|]. apply NoDup_filter, seq_NoDup. }
  assert (incl (map Z.of_nat r) nC) as Hi.
  { intros z Hz. apply in_map_iff in Hz as (j & <- & Hj). apply filter_In in Hj as [_ Hj]. unfold in_nC in Hj.
    apply existsb_exists in Hj as (y & Hy & E). apply Z.eqb_eq in E. subst y. exact Hy. }
  assert (length nC <= length (map Z.of_nat r)) as Hl by (rewrite map_length; lia).
  split; [eapply NoDup_incl_NoDup; eassumption|].
  intros z Hz. pose proof (NoDup_length_incl Hr Hl Hi z Hz) as Hz'. clear Hz; rename Hz' into Hz. apply in_map_iff in Hz as (j & <- & Hj).
  apply filter_In in Hj as [Hj _]. apply in_seq in Hj. lia.
Qed.
Lemma H_with_needs_valid {T} (A : Ops T) hint (B : basis (T:=T)) x n d r : 0 < n ->
  cpp_H_with A hint B x n d false = Some r -> valid_nC (b_nC B) (b_m B).
Proof.
  intros Hn H. unfold cpp_H_with in H. cbn [negb andb] in H.
  destruct (Nat.ltb_spec (b_m B) (length (b_nC B))) as [|Hm]; [discriminate|].
  destruct (cpp_map_points _ _ _ _); [|discriminate]. cbn [bind] in H.
  destruct (hint _ _ _ _); [|discriminate]. cbn [bind] in H.
  destruct (cpp_emit _ _ _ _ _ _ _ _ _) as [F|] eqn:EF; [|discriminate].
  apply emit_overflow in EF; [|exact Hn|reflexivity].
  apply kept_valid; assumption.
Qed.
Lemma H_needs_valid {T} (A : Ops T) (E : Fun T) f (B : basis (T:=T)) xs d M : xs <> [] ->
  cpp_H_mat A E f B xs d false = Some M -> valid_nC (b_nC B) (b_m B).
Proof.
  intros Hx H. unfold cpp_H_mat, cpp_H in H.
  destruct (cpp_H_with _ _ _ _ _ _ _) as [r|] eqn:Er; [|discriminate].
  apply H_with_needs_valid in Er; [exact Er|destruct xs; [congruence|cbn; lia]].
Qed.
Lemma elm_needs_valid {T} (A : Ops T) (E : Fun T) f w b (B : basis (T:=T)) xs d M : xs <> [] ->
  cpp_elm_H_mat A E f w b B xs d false = Some M -> valid_nC (b_nC B) (b_m B).
Proof.
  intros Hx H. unfold cpp_elm_H_mat in H.
  destruct (cpp_H_with _ _ _ _ _ _ _) as [r|] eqn:Er; [|discriminate].
  apply H_with_needs_valid in Er; [exact Er|destruct xs; [congruence|cbn; lia]].
Qed.

(** ** Arrays with gaps *)
(** the list with [g] between its elements, [s] cells apart *)
Definition spread (s : nat) (g : Z) (l : list Z) : list Z := concat (map (fun z => z :: repeat g (s - 1)) l).
Lemma spread_nth s g l i x : 1 <= s -> nth_error l i = Some x -> nth_error (spread s g l) (i * s) = Some x.
Proof.
  intros Hs. revert i. induction l as [|z l IH]; intros [|i] H; try discriminate.
  - injection H as ->. reflexivity.
  - unfold spread. cbn [map concat]. rewrite nth_error_app2; cbn [length]; rewrite repeat_length; [|nia].
    replace (S i * s - S (s - 1)) with (i * s) by nia. apply IH. exact H.
Qed.
Lemma spread_length s g l : 1 <= s -> length (spread s g l) = length l * s.
Proof.
  intros Hs. unfold spread. rewrite (concat_length_c s); [now rewrite map_length|].
  apply Forall_forall. intros r Hr. apply in_map_iff in Hr as (z & <- & _). cbn. rewrite repeat_length. lia.
Qed.
Lemma spread_is_array s g l : 1 <= s -> is_array [spread s g l] (View 0 0 (Z.of_nat s) (length l)) l.
Proof.
  intros Hs. split; [reflexivity|]. intros i x H. cbn [v_blk v_off v_str]. split; [lia|]. eexists. split; [reflexivity|].
  replace (Z.to_nat _) with (i * s) by lia. apply spread_nth; assumption.
Qed.
Lemma raw_firstn {T} (h : heap T) b o s n l : nth_error h b = Some l -> o + n <= length l ->
  vraw h (View b (Z.of_nat o) s n) n = Some (firstn n (skipn o l)).
Proof.
  intros E Hl. unfold vraw. apply mapM_nth; [rewrite firstn_length, skipn_length, seq_length; lia|].
  intros i a x Ha Hx. apply nth_seq in Ha as [-> Hi]. apply stored_cell. split; [cbn; lia|]. exists l. split; [exact E|].
  cbn [v_off]. replace (Z.to_nat _) with (o + i) by lia. rewrite <- Hx. clear - Hi. revert l. induction o as [|o IH]; intros l.
  - cbn. symmetry. revert i Hi l. induction n as [|n IH]; intros [|i] Hi [|y l]; try lia; try reflexivity. cbn. apply IH. lia.
  - destruct l as [|y l]; cbn; [destruct n, i; reflexivity|]. apply IH.
Qed.
Lemma not_valid l m z : In z l -> (z < 0)%Z -> ~ valid_nC l m.
Proof. intros Hi Hz [_ H]. specialize (H z Hi). lia. Qed.
(** what is read of an array with gaps holds the second cell of the block *)
Lemma spread_raw s g l : 2 <= s -> 2 <= length l -> exists r, vraw [spread s g l] (View 0 0 (Z.of_nat s) (length l)) (length l) = Some r /\ In g r.
Proof.
  intros Hs Hl. eexists. split; [apply (raw_firstn _ 0 0 _ (length l) (spread s g l)); [reflexivity|rewrite spread_length by lia; nia]|].
  destruct l as [|a [|b l]]; cbn in Hl; try lia. destruct s as [|[|s]]; [lia|lia|]. cbn. right. left. reflexivity.
Qed.

(** ** Columns first *)
Lemma nth_table {T} r c (g : nat -> nat -> T) i row : nth_error (table r c g) i = Some row -> i < r /\ row = map (g i) (seq 0 c).
Proof.
  intros H. unfold table in H. rewrite nth_error_map in H. destruct (nth_error (seq 0 r) i) as [a|] eqn:E; [|discriminate].
  apply nth_seq in E as [-> Hi]. injection H as <-. auto.
Qed.
Lemma nth_mapseq {T} (g : nat -> T) n i x : nth_error (map g (seq 0 n)) i = Some x -> i < n /\ x = g i.
Proof.
  rewrite nth_error_map. destruct (nth_error (seq 0 n) i) as [a|] eqn:E; [|discriminate]. apply nth_seq in E as [-> Hi]. intros [= <-]. auto.
Qed.
Lemma table_rows {T} r c (g : nat -> nat -> T) : Forall (fun l => length l = c) (table r c g).
Proof. apply Forall_forall. intros l H. apply in_map_iff in H as (i & <- & _). rewrite map_length, seq_length. reflexivity. Qed.
Lemma table_length {T} r c (g : nat -> nat -> T) : length (table r c g) = r.
Proof. unfold table. rewrite map_length, seq_length. reflexivity. Qed.
Lemma concat_table {T} r c (g : nat -> nat -> T) i j : i < r -> j < c -> nth_error (concat (table r c g)) (i * c + j) = Some (g i j).
Proof.
  intros Hi Hj. assert (i * c + j < length (concat (table r c g))) as Hlt by (rewrite (concat_length_c c _ (table_rows r c g)), table_length; nia).
  destruct (nth_error (concat (table r c g)) (i * c + j)) as [x|] eqn:E; [|apply nth_error_None in E; lia].
  destruct (nth_concat _ _ (table_rows r c g) _ _ E) as (row & E1 & E2 & _).
  rewrite Nat.add_comm, Nat.div_add, Nat.div_small in E1 by lia. rewrite Nat.add_comm, Nat.mod_add, Nat.mod_small in E2 by lia.
  apply nth_table in E1 as [_ ->]. apply nth_mapseq in E2 as [_ ->]. reflexivity.
Qed.
(** the matrix [g] in Fortran order *)
Definition fortran {T} (r c : nat) (g : nat -> nat -> T) : list T := concat (table c r (fun j i => g i j)).
Definition fortran_view (r c : nat) : view2 := View2 0 0 1 (Z.of_nat r) r c.
Lemma fortran_is_array {T} r c (g : nat -> nat -> T) : is_array2 [fortran r c g] (fortran_view r c) (table r c g).
Proof.
  split; [apply table_length|]. split; [apply table_rows|]. intros i j row x Hr Hx. apply nth_table in Hr as [Hi ->].
  apply nth_mapseq in Hx as [Hj ->]. cbn [fortran_view w_blk w_off w_s0 w_s1]. split; [lia|]. eexists. split; [reflexivity|].
  replace (Z.to_nat _) with (j * r + i) by lia. apply (concat_table c r (fun j i => g i j)); assumption.
Qed.
Lemma fortran_plain r c (g : nat -> nat -> Z) same : plain2 [fortran r c g] (fortran_view r c) same = Some (fortran r c g).
Proof.
  unfold plain2. cbn [fortran_view w_blk w_off w_s0 w_s1 w_n0 w_n1]. destruct same.
  - change 0%Z with (Z.of_nat 0) at 1.
    assert (length (fortran r c g) = r * c) as L by (unfold fortran; rewrite (concat_length_c r _ (table_rows _ _ _)), table_length; lia).
    rewrite (raw_firstn _ _ _ _ _ (fortran r c g)); [|reflexivity|lia]. cbn [skipn]. rewrite <- L, firstn_all. reflexivity.
  - destruct (Z.ltb_spec (Z.abs 1) (Z.abs (Z.of_nat r))) as [H|H].
    + unfold vcols2. cbn [fortran_view w_blk w_off w_s0 w_s1 w_n0 w_n1].
      rewrite (mapM_nth _ _ (table c r (fun j i => g i j))); [reflexivity|rewrite table_length, seq_length; reflexivity|].
      intros j a row Ha Hr. apply nth_seq in Ha as [-> Hj]. apply nth_table in Hr as [_ ->].
      apply mapM_nth; [rewrite map_length; reflexivity|]. intros i a x Ha Hx. apply nth_seq in Ha as [-> Hi]. apply nth_mapseq in Hx as [_ ->].
      apply stored_cell. split; [lia|]. eexists. split; [reflexivity|]. replace (Z.to_nat _) with (j * r + i) by lia. apply (concat_table c r (fun j i => g i j)); assumption.
    + fold (fortran_view r c). rewrite (is_array2_read _ _ _ (fortran_is_array r c g)). cbn [bind]. f_equal. unfold fortran.
      assert (r = 0 \/ r = 1) as [-> | ->] by lia.
      * unfold table. cbn. induction (seq 0 c); cbn; auto.
      * unfold table at 1. cbn. rewrite app_nil_r. unfold table. cbn. induction (seq 0 c) as [|j l IH]; cbn; [reflexivity|]. f_equal. exact IH.
Qed.
Lemma fortran_chop n (g : nat -> nat -> Z) : chop n n (fortran n n g) = table n n (fun i j => g j i).
Proof.
  unfold fortran. rewrite <- (table_length n n (fun j i => g i j)) at 1. apply chop_concat, table_rows.
Qed.

(** ** The two columns of an array of bounds *)
Lemma bounds_nth {T} (l : list (T * T)) i p : nth_error l i = Some p ->
  nth_error (concat (map (fun p => [fst p; snd p]) l)) (i * 2) = Some (fst p) /\
  nth_error (concat (map (fun p => [fst p; snd p]) l)) (1 + i * 2) = Some (snd p).
Proof. revert i. induction l as [|q l IH]; intros [|i] H; try discriminate; [injection H as <-; auto|]. apply (IH i H). Qed.
Lemma bounds_length {T} (l : list (T * T)) : length (concat (map (fun p => [fst p; snd p]) l)) = 2 * length l.
Proof. induction l; cbn in *; lia. Qed.
