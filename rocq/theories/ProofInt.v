From Coq Require Import List ZArith Lia Bool FinFun Permutation.
From Verif Require Import Base ModelRegistry ModelInt SpecInt.
Import ListNotations.
Local Open Scope Z_scope.

Lemma fits_max z : fits z <-> z <= INT_MAX.
Proof. reflexivity. Qed.
Lemma int_ok z : INT_MIN <= z <= INT_MAX -> int z = Some z.
Proof.
  intros [A B]. unfold int.
  now rewrite (proj2 (Z.leb_le _ _) A), (proj2 (Z.leb_le _ _) B).
Qed.
Lemma int_some z y : int z = Some y -> y = z /\ INT_MIN <= z <= INT_MAX.
Proof.
  unfold int. destruct (INT_MIN <=? z) eqn:A; [|easy]. destruct (z <=? INT_MAX) eqn:B; [|easy].
  cbn. intros [= <-]. apply Z.leb_le in A. apply Z.leb_le in B. easy.
Qed.
Lemma int_none z : INT_MAX < z -> int z = None.
Proof. intros A. unfold int. rewrite (proj2 (Z.leb_gt _ _) A). now rewrite andb_false_r. Qed.
Lemma iop_ok f a b x y : a = Some x -> b = Some y -> INT_MIN <= f x y <= INT_MAX -> iop f a b = Some (f x y).
Proof. intros -> ->. apply int_ok. Qed.
Lemma at_ok b e i : e = Some i -> 0 <= i < b -> at_ b e = Some tt.
Proof. intros -> [A B]. cbn. now rewrite (proj2 (Z.leb_le _ _) A), (proj2 (Z.ltb_lt _ _) B). Qed.
Lemma new_ok e s : e = Some s -> 0 <= s -> new e = Some s.
Proof. intros -> A. cbn. now rewrite (proj2 (Z.leb_le _ _) A). Qed.
Lemma copy_ok dst src e s : e = Some s -> 0 <= s -> s <= dst -> s <= src -> copy dst src e = Some tt.
Proof.
  intros -> A B C. cbn. now rewrite (proj2 (Z.leb_le _ _) A), (proj2 (Z.leb_le _ _) B), (proj2 (Z.leb_le _ _) C).
Qed.
Lemma seq_ok (a b : cmd) : a = Some tt -> b = Some tt -> (a ;;; b) = Some tt.
Proof. now intros -> ->. Qed.
Lemma each_ok {X} (l : list X) f : (forall a, In a l -> f a = Some tt) -> each l f = Some tt.
Proof.
  induction l as [|a l IH]; [easy|]. intros H. cbn. rewrite (H a (or_introl eq_refl)). cbn.
  apply IH. intros b B. apply H. now right.
Qed.
Lemma in_range lo hi k : In k (range lo hi) <-> lo <= k < hi.
Proof.
  unfold range. rewrite in_map_iff. split.
  - intros [i [<- H]]. apply in_seq in H. lia.
  - intros H. exists (Z.to_nat (k - lo)). split; [lia|]. apply in_seq. lia.
Qed.
Lemma for_ok lo e h f : e = Some h -> (forall k, lo <= k < h -> f k = Some tt) -> for_ lo e f = Some tt.
Proof. intros -> H. cbn. apply each_ok. intros k K. now apply H, in_range. Qed.
Lemma cell m n k j : 0 <= k < n -> 0 <= j < m -> 0 <= m * k <= m * n - m /\ m * k + j < m * n.
Proof. intros. nia. Qed.

Ltac rng := unfold INT_MIN, INT_MAX, lit in *; lia.
Ltac val := first [reflexivity | (eapply iop_ok; [val | val | cbn beta; rng])].
Ltac acc := eapply at_ok; [val | cbn beta; rng].
Ltac loop := eapply for_ok; [val | cbn beta; intros].
Ltac cmds := repeat (apply seq_ok); try acc.

Section Hint.
Context (m n : Z) (Hm : 1 <= m) (Hm' : m <= INT_MAX) (Hn : 0 <= n) (Hmn : m * n <= INT_MAX).

Lemma n_fits : n <= INT_MAX /\ 0 <= m * n.
Proof. clear Hm'. nia. Qed.

Lemma cp_deriv_ok x F steps : 3 <= m -> n <= x -> m * n <= F -> forall o, cp_deriv m n x F o steps = Some tt.
Proof.
  intros M X F'. pose proof n_fits.
  induction steps as [|s IH]; [easy|]. intros o. cbn [cp_deriv poly_deriv].
  rewrite (new_ok _ (m * n)); [|val|nia]. cbn [bind].
  apply seq_ok. { eapply copy_ok; [val|nia..]. }
  apply seq_ok.
  { destruct o as [|[|o]]; [loop|loop|easy].
    - pose proof (cell m n k 1). cmds.
    - pose proof (cell m n k 1). cmds. }
  apply seq_ok; [|apply IH].
  loop. loop. pose proof (cell m n k0 k). cmds.
Qed.
Lemma poly_deriv_ok x F steps : 3 <= m -> n <= x -> m * n <= F -> forall o, poly_deriv m n x F o steps = Some tt.
Proof.
  intros M X F'. pose proof n_fits.
  induction steps as [|s IH]; [easy|]. intros o. cbn [cp_deriv poly_deriv].
  rewrite (new_ok _ (m * n)); [|val|nia]. cbn [bind].
  apply seq_ok. { eapply copy_ok; [val|nia..]. }
  apply seq_ok.
  { destruct o as [|[|o]]; [loop|loop|easy].
    - pose proof (cell m n k 1). cmds.
    - pose proof (cell m n k 1). cmds. }
  apply seq_ok; [|apply IH].
  loop. loop. pose proof (cell m n k0 (k + 1)). cmds.
Qed.
Lemma poly_hint_ok cheb d x dark : n <= x -> m * n <= dark -> poly_hint cheb m n d x dark = Some tt.
Proof.
  intros X D. pose proof n_fits. unfold poly_hint.
  rewrite (iop_ok _ _ _ m 1); [|easy|easy|rng]. cbn [bind].
  destruct (m - 1 =? 0) eqn:E0; [apply Z.eqb_eq in E0; assert (m = 1) by lia; subst m|apply Z.eqb_neq in E0].
  { loop. cmds. }
  destruct (m - 1 =? 1) eqn:E1; [apply Z.eqb_eq in E1|apply Z.eqb_neq in E1].
  - destruct d as [|[|d]].
    + loop. pose proof (cell m n k 1). cmds.
    + loop. pose proof (cell m n k 1). cmds.
    + loop. cmds.
  - repeat apply seq_ok.
    + loop. pose proof (cell m n k 1). cmds.
    + destruct cheb; loop; loop.
      * pose proof (cell m n k0 k). cmds.
      * pose proof (cell m n k0 (k + 1)). cmds.
    + destruct cheb; [apply cp_deriv_ok|apply poly_deriv_ok]; lia.
Qed.
Lemma fs_hint_ok x dark : n <= x -> m * n <= dark -> fs_hint m n x dark = Some tt.
Proof.
  intros X D. pose proof n_fits. unfold fs_hint. apply seq_ok.
  - loop. pose proof (cell m n k 0). cmds.
  - loop. loop. pose proof (cell m n k0 k). cmds.
Qed.
Lemma elm_pass_ok x dark w b : n <= x -> m * n <= dark -> m <= w -> m <= b -> elm_pass m n x dark w b = Some tt.
Proof. intros. pose proof n_fits. unfold elm_pass. loop. loop. pose proof (cell m n k k0). cmds. Qed.
Lemma elm_again_ok dark w : m * n <= dark -> m <= w -> elm_again m n dark w = Some tt.
Proof. intros. pose proof n_fits. unfold elm_again. loop. loop. pose proof (cell m n k k0). cmds. Qed.
Lemma new_nm : new (n * m) = Some (m * n).
Proof. rewrite (Z.mul_comm m n). apply new_ok; [|nia]. eapply iop_ok; [easy|easy|]. pose proof n_fits. rng. Qed.
Lemma elm_hint_ok k d x dark w b : n <= x -> m * n <= dark -> m <= w -> m <= b -> elm_hint k m n d x dark w b = Some tt.
Proof.
  intros. assert (P := elm_pass_ok x dark w b). assert (A := elm_again_ok dark w).
  assert (D : (elm_pass m n x dark w b ;;; (if (1 <=? d)%nat && (d <=? 8)%nat then elm_again m n dark w else skip)) = Some tt).
  { apply seq_ok; [now apply P|]. destruct (_ && _); [now apply A|easy]. }
  destruct k; cbn [elm_hint]; try exact D; try (now apply P).
  - destruct d as [|[|d]]; [now apply P|now apply P|now apply A].
  - rewrite !new_nm. cbn [bind]. destruct d as [|d]; [now apply P|].
    assert (A' : elm_again m n (m * n) w = Some tt) by (now apply elm_again_ok).
    repeat apply seq_ok; [now apply elm_pass_ok|easy|].
    destruct (S d <=? 8)%nat; [|easy]. repeat apply seq_ok; [now apply A|easy|easy].
Qed.
Lemma hint_ok k d x dark w b : n <= x -> m * n <= dark -> (is_elm k = true -> m <= w /\ m <= b) -> hint k m n d x dark w b = Some tt.
Proof.
  intros X D E. destruct k; cbn [hint]; first [now apply poly_hint_ok | now apply fs_hint_ok | apply elm_hint_ok; try lia; now apply E].
Qed.
End Hint.

(** ** One dimension *)
Definition kept (nC js : list Z) : list Z := filter (fun j => negb (existsb (Z.eqb j) nC)) js.

Lemma columns_ok m n mOut F dark nC : 1 <= m <= INT_MAX -> 0 <= n -> m * n <= INT_MAX -> mOut <= m -> mOut * n <= F -> m * n <= dark ->
  forall js i, Forall (fun j => 0 <= j < m) js -> -1 <= i -> i + 1 + Z.of_nat (length (kept nC js)) <= mOut ->
  columns js nC m n mOut F dark i = Some tt.
Proof.
  intros Hm Hn Hmn HM HF HD. pose proof (n_fits m n ltac:(lia) Hn Hmn).
  induction js as [|j js IH]; [easy|]. intros i J I L. inversion J as [|? ? J1 J2]; subst. cbn [columns].
  apply seq_ok. { loop. cmds. }
  cbn [kept filter] in L. destruct (existsb (Z.eqb j) nC).
  - now apply IH.
  - cbn in L. rewrite (iop_ok _ _ _ i 1); [|easy|easy|rng]. cbn [bind].
    apply seq_ok; [|apply IH; [easy|lia|fold (kept nC js) in L; lia]].
    loop. pose proof (cell m n k j). pose proof (cell mOut n k (i + 1)).
    assert (mOut * n <= m * n) by nia. cmds.
Qed.
Lemma range_nodup lo hi : NoDup (range lo hi).
Proof. apply Injective_map_NoDup; [|apply seq_NoDup]. intros a b. lia. Qed.
Lemma range_length lo hi : length (range lo hi) = Z.to_nat (hi - lo).
Proof. unfold range. now rewrite map_length, seq_length. Qed.
Lemma filter_split {X} (p : X -> bool) l : (length (filter p l) + length (filter (fun a => negb (p a)) l) = length l)%nat.
Proof. induction l as [|a l IH]; [easy|]. cbn. destruct (p a); cbn; lia. Qed.
Lemma kept_length m nC : 0 <= m -> removable m nC -> Z.of_nat (length (kept nC (range 0 m))) = m - numC_of nC.
Proof.
  intros Hm [ND F]. pose proof (range_length 0 m) as L.
  assert (P : length (filter (fun j => existsb (Z.eqb j) nC) (range 0 m)) = length nC).
  { apply Permutation_length, NoDup_Permutation; [apply NoDup_filter, range_nodup|easy|].
    intros j. rewrite filter_In, in_range, existsb_exists. rewrite Forall_forall in F. split.
    - intros [_ [y [Y E]]]. apply Z.eqb_eq in E. now subst.
    - intros J. split; [now apply F|]. exists j. now rewrite Z.eqb_refl. }
  pose proof (filter_split (fun j => existsb (Z.eqb j) nC) (range 0 m)) as Q.
  unfold kept, numC_of. lia.
Qed.
Lemma numC_le m nC : 0 <= m -> removable m nC -> numC_of nC <= m.
Proof. intros Hm R. pose proof (kept_length m nC Hm R). lia. Qed.
Lemma store_ok m n mOut F dark nC (full : bool) : 1 <= m <= INT_MAX -> 0 <= n -> m * n <= INT_MAX -> removable m nC ->
  mOut = (if full then m else m - numC_of nC) -> mOut * n <= F -> m * n <= dark -> store nC m n mOut F dark full = Some tt.
Proof.
  intros Hm Hn Hmn R E HF HD. pose proof (n_fits m n ltac:(lia) Hn Hmn). unfold store. destruct full; subst mOut.
  - loop. loop. pose proof (cell m n k0 k). cmds.
  - pose proof (kept_length m nC ltac:(lia) R) as K.
    apply columns_ok; try assumption; try lia.
    + unfold numC_of. lia.
    + apply Forall_forall. intros j. apply in_range.
Qed.
Lemma mapped_ok n : 0 <= n <= INT_MAX -> mapped n = Some n.
Proof.
  intros. unfold mapped. rewrite (new_ok _ n); [|easy|lia]. cbn [bind].
  rewrite (for_ok 0 (lit n) n); [easy|easy|]. intros. cmds.
Qed.
Lemma H_int_ok c m nC n d (full : bool) : one_d c = true -> 1 <= m -> fits m -> size n -> removable m nC -> fits (n * m) ->
  H_int c m nC n d full = Some (n, if full then m else m - numC_of nC).
Proof.
  intros C Hm Hm' [Hn Hn'] R Hmn. rewrite fits_max in *. rewrite Z.mul_comm in Hmn.
  pose proof (numC_le m nC ltac:(lia) R) as NC. unfold H_int.
  assert (E : (if full return option Z then lit m else (m - numC_of nC)%int) = Some (if full then m else m - numC_of nC)).
  { destruct full; [easy|]. eapply iop_ok; [easy|easy|]. unfold numC_of in *. rng. }
  rewrite E. cbn [bind]. set (mOut := if full then m else _).
  assert (0 <= mOut <= m) by (unfold mOut, numC_of in *; destruct full; lia).
  rewrite new_nm, mapped_ok; [|lia..]. cbn [bind].
  rewrite (new_ok _ (mOut * n)); [|eapply iop_ok; [easy|easy|]; assert (0 <= mOut * n <= m * n) by nia; rng|nia].
  cbn [bind]. rewrite hint_ok; try assumption; try lia.
  cbn [bind]. rewrite store_ok; try easy; lia.
Qed.
Lemma new_overflow a b : 0 <= a -> 0 <= b -> ~ fits (a * b) -> new (a * b) = None.
Proof. intros A B F. unfold new, iop, lit. cbn [bind]. rewrite int_none; [easy|]. unfold fits in F. unfold INT_MAX. lia. Qed.
Lemma H_int_bad c m nC n d full : 1 <= m -> 0 <= n -> ~ fits (n * m) -> H_int c m nC n d full = None.
Proof.
  intros Hm Hn F. unfold H_int. rewrite new_overflow; [|lia|lia|easy]. destruct (if full then _ else _); easy.
Qed.
Lemma xla_int_ok c m nC n d (full : bool) : one_d c = true -> 1 <= m -> fits m -> size n -> removable m nC -> fits (n * m) ->
  xla_int c m nC n d full (if full then m else m - numC_of nC) = Some tt.
Proof.
  intros C Hm Hm' [Hn Hn'] R Hmn. rewrite fits_max in *. rewrite Z.mul_comm in Hmn. unfold xla_int.
  rewrite new_nm, mapped_ok; [|lia..]. cbn [bind].
  rewrite hint_ok; try assumption; try lia.
  cbn [bind]. rewrite store_ok; try easy; lia.
Qed.
Lemma xla_int_bad c m nC n d full mOut : 1 <= m -> 0 <= n -> ~ fits (n * m) -> xla_int c m nC n d full mOut = None.
Proof. intros Hm Hn F. unfold xla_int. rewrite new_overflow; [|lia|lia|easy]. easy. Qed.

(** ** The number of products *)
Fixpoint zsum (f : Z -> Z) (l : list Z) : Z := match l with [] => 0 | k :: r => f k + zsum f r end.
Definition total (vec : list Z) : Z := zsum (fun v => v) vec.
Definition keepb (full : bool) (dim numC : Z) (nC vec : list Z) : bool :=
  full || existsb (fun j =>
    forallb (fun g => negb (nth (Z.to_nat j) vec 0 =? nth (Z.to_nat (j * numC + g)) nC 0)) (range 0 numC)) (range 0 dim).
Fixpoint cnt (full : bool) (m dim numC : Z) (nC : list Z) (r : nat) (vec : list Z) : Z :=
  match r with
  | O => if keepb full dim numC nC vec && (total vec <=? m - 1) then 1 else 0
  | S r' => zsum (fun k => cnt full m dim numC nC r' (k :: vec)) (range 0 m)
  end.
Lemma zsum_nonneg f l : (forall k, In k l -> 0 <= f k) -> 0 <= zsum f l.
Proof. induction l as [|a l IH]; cbn; [lia|]. intros H. pose proof (H a (or_introl eq_refl)). pose proof (IH (fun k K => H k (or_intror K))). lia. Qed.
Lemma zsum_le f g l : (forall k, In k l -> f k <= g k) -> zsum f l <= zsum g l.
Proof. induction l as [|a l IH]; cbn; [lia|]. intros H. pose proof (H a (or_introl eq_refl)). pose proof (IH (fun k K => H k (or_intror K))). lia. Qed.
Lemma cnt_nonneg full m dim numC nC r : forall vec, 0 <= cnt full m dim numC nC r vec.
Proof.
  induction r as [|r IH]; intros vec; cbn [cnt]; [destruct (_ && _); lia|].
  apply zsum_nonneg. intros k _. apply IH.
Qed.
Lemma cnt_full_ge full m dim numC nC r : forall vec, cnt full m dim numC nC r vec <= cnt true m dim numC nC r vec.
Proof.
  induction r as [|r IH]; intros vec; cbn [cnt].
  - cbn [keepb orb andb]. destruct (total vec <=? m - 1); [|now rewrite andb_false_r].
    destruct (keepb _ _ _ _ _); cbn; lia.
  - apply zsum_le. intros k _. apply IH.
Qed.
Lemma isum_from vec : forall s, 0 <= s -> Forall (fun v => 0 <= v) vec -> s + total vec <= INT_MAX ->
  fold_left (fun s v => (s + lit v)%int) vec (Some s) = Some (s + total vec).
Proof.
  induction vec as [|v vec IH]; intros s S F L; cbn [fold_left total zsum] in *; [f_equal; lia|].
  inversion F as [|? ? F1 F2]; subst. fold (total vec) in *.
  assert (0 <= total vec) by (apply zsum_nonneg; now apply Forall_forall).
  replace (Some s + lit v)%int with (Some (s + v)) by (symmetry; apply (iop_ok Z.add _ _ s v); [easy|easy|rng]). rewrite IH; [f_equal; lia|lia|easy|lia].
Qed.
Lemma isum_ok vec : Forall (fun v => 0 <= v) vec -> total vec <= INT_MAX -> isum vec = Some (total vec).
Proof. intros. unfold isum, lit. rewrite isum_from; [easy|lia|easy|lia]. Qed.
Lemma isum_some vec : forall s y, fold_left (fun s v => (s + lit v)%int) vec (Some s) = Some y -> y = s + total vec.
Proof.
  assert (N : forall vec, fold_left (fun s v => (s + lit v)%int) vec None = None) by (induction vec0; [easy|easy]).
  induction vec as [|v vec IH]; intros s y H; cbn [fold_left total zsum] in *; [injection H; lia|].
  change (Some s + lit v)%int with (int (s + v)) in H. destruct (int (s + v)) as [t|] eqn:E; [|now rewrite N in H].
  apply int_some in E. apply IH in H. fold (total vec) in *. lia.
Qed.
Lemma total_le m vec : Forall (fun v => 0 <= v < m) vec -> total vec <= Z.of_nat (length vec) * (m - 1).
Proof. induction 1; cbn [total zsum length]; [lia|]. fold (total l). lia. Qed.

Section Products.
Context (full : bool) (m dim numC : Z) (nC : list Z) (f : list Z -> Z -> cmd).
Context (Hm : 1 <= m <= INT_MAX) (Hd : 1 <= dim <= INT_MAX) (Hc : 0 <= numC).
Let CNT := cnt full m dim numC nC.

Lemma flagged_ok vec : Z.of_nat (length nC) = dim * numC -> dim * numC <= INT_MAX ->
  flagged dim numC nC vec = Some (keepb false dim numC nC vec).
Proof.
  intros L B. unfold flagged. rewrite (for_ok 0 (lit dim) dim); [easy|easy|]. intros j J. loop.
  pose proof (cell numC dim j k). rewrite L. cmds.
Qed.
Lemma flagged_some vec b : flagged dim numC nC vec = Some b -> b = keepb false dim numC nC vec.
Proof. unfold flagged. destruct (for_ 0 dim _); [|easy]. cbn. now intros [= <-]. Qed.

Lemma products_ok bound : Z.of_nat (length nC) = dim * numC -> dim * numC <= INT_MAX -> dim * (m - 1) <= INT_MAX -> bound <= INT_MAX ->
  (forall vec c, length vec = Z.to_nat dim -> Forall (fun v => 0 <= v < m) vec -> 0 <= c < bound -> f vec c = Some tt) ->
  forall r vec c, (length vec + r = Z.to_nat dim)%nat -> Forall (fun v => 0 <= v < m) vec -> 0 <= c -> c + CNT r vec <= bound ->
  products full m dim numC nC f r vec c = Some (c + CNT r vec).
Proof.
  intros HN HB HS BB HF. induction r as [|r IH]; intros vec c L V C B; unfold CNT in *; cbn [products cnt] in *.
  - replace (if full then Some true else flagged dim numC nC vec) with (Some (keepb full dim numC nC vec))
      by (destruct full; [easy|now rewrite flagged_ok]).
    cbn [bind]. destruct (keepb full dim numC nC vec); cbn [andb] in *; [|f_equal; lia].
    pose proof (total_le m vec V) as T. replace (Z.of_nat (length vec)) with dim in T by lia.
    rewrite isum_ok; [|eapply Forall_impl; [|exact V]; cbn beta; intros; lia|lia]. cbn [bind].
    rewrite (iop_ok _ _ _ m 1); [|easy|easy|rng]. cbn [bind].
    destruct (total vec <=? m - 1); [|f_equal; lia].
    rewrite HF; [|lia|easy|lia]. cbn [bind]. eapply iop_ok; [easy|easy|rng].
  - assert (G : forall l c, (forall k, In k l -> 0 <= k < m) -> 0 <= c -> c + zsum (fun k => cnt full m dim numC nC r (k :: vec)) l <= bound ->
      fold_left (fun c k => c <- c ;; products full m dim numC nC f r (k :: vec) c) l (Some c)
      = Some (c + zsum (fun k => cnt full m dim numC nC r (k :: vec)) l)).
    { clear c C B. induction l as [|k l IHl]; intros c K C B; cbn [fold_left zsum bind] in *; [f_equal; lia|].
      fold (zsum (fun k => cnt full m dim numC nC r (k :: vec)) l) in *.
      assert (0 <= zsum (fun k => cnt full m dim numC nC r (k :: vec)) l) by (apply zsum_nonneg; intros; apply cnt_nonneg).
      pose proof (cnt_nonneg full m dim numC nC r (k :: vec)).
      rewrite IH; [|cbn; lia| |easy|lia].
      - rewrite IHl; [f_equal; lia| |lia|lia]. intros k' K'. apply K. now right.
      - constructor; [apply K; now left|easy]. }
    apply G; [|easy|easy]. intros k. apply in_range.
Qed.
Lemma products_some : forall r vec c y, products full m dim numC nC f r vec c = Some y -> c <= INT_MAX -> y = c + CNT r vec /\ y <= INT_MAX.
Proof.
  induction r as [|r IH]; intros vec c y H C; unfold CNT in *; cbn [products cnt] in *.
  - destruct (if full then Some true else flagged dim numC nC vec) as [b|] eqn:E; [|easy].
    assert (b = keepb full dim numC nC vec) by (destruct full; [now injection E|now apply flagged_some]). subst b.
    cbn [bind] in H. destruct (keepb full dim numC nC vec); cbn [andb]; [|injection H; lia].
    destruct (isum vec) as [s|] eqn:S; [|easy]. apply isum_some in S. cbn [bind] in H.
    rewrite (iop_ok _ _ _ m 1) in H; [|easy|easy|rng]. cbn [bind] in H.
    rewrite Z.add_0_l in S. subst s. destruct (total vec <=? m - 1); [|injection H; lia].
    destruct (f vec c); [|easy]. cbn [bind] in H. unfold iop, lit in H. cbn [bind] in H. apply int_some in H. lia.
  - assert (N : forall l, fold_left (fun c k => c <- c ;; products full m dim numC nC f r (k :: vec) c) l None = None) by (induction l; easy).
    revert c C H. induction (range 0 m) as [|k l IHl]; intros c C H; cbn [fold_left zsum bind] in *; [injection H; lia|].
    destruct (products full m dim numC nC f r (k :: vec) c) as [c'|] eqn:E; [|now rewrite N in H].
    apply IH in E; [|easy]. destruct E as [E1 E2]. apply IHl in H; [|easy].
    fold (zsum (fun k => cnt full m dim numC nC r (k :: vec)) l) in *. lia.
Qed.
End Products.

(** the number of products is a binomial coefficient *)
Notation bin := binomial.binomial.
Lemma bin0 n : bin n 0 = 1%nat. Proof. now destruct n. Qed.
Lemma binS n k : bin (S n) (S k) = (bin n (S k) + bin n k)%nat. Proof. reflexivity. Qed.
Lemma choose_ge p : forall q, (p * q + 1 <= bin (p + q) q)%nat.
Proof.
  induction p as [|p IHp].
  - induction q as [|q IHq]; [easy|]. change (0 + S q)%nat with (S (0 + q)). rewrite binS. lia.
  - induction q as [|q IHq]; [rewrite bin0; lia|].
    change (S p + S q)%nat with (S (p + S q)). rewrite binS.
    pose proof (IHp (S q)). replace (p + S q)%nat with (S p + q)%nat in * by lia. nia.
Qed.
Lemma zsum_ext f g l : (forall k, In k l -> f k = g k) -> zsum f l = zsum g l.
Proof. intros H. induction l as [|a l IH]; [easy|]. cbn. rewrite (H a (or_introl eq_refl)), IH; [easy|]. intros k K. apply H. now right. Qed.
Lemma zsum_map f g l : zsum f (map g l) = zsum (fun k => f (g k)) l.
Proof. induction l as [|a l IH]; cbn; [easy|]. now rewrite IH. Qed.
Lemma zsum_zero f l : (forall k, In k l -> f k = 0) -> zsum f l = 0.
Proof. intros H. rewrite (zsum_ext f (fun _ => 0)) by easy. clear H. induction l; cbn; lia. Qed.
Lemma range_cons lo hi : lo < hi -> range lo hi = lo :: map (fun k => k + 1) (range lo (hi - 1)).
Proof.
  intros H. unfold range. replace (Z.to_nat (hi - lo)) with (S (Z.to_nat (hi - 1 - lo))) by lia.
  cbn [seq map]. f_equal; [lia|]. rewrite <- seq_shift, !map_map. apply map_ext. intros. lia.
Qed.
Lemma hockey r t : forall N, Z.of_nat t < N ->
  zsum (fun k => if k <=? Z.of_nat t then choose (t - Z.to_nat k + r) r else 0) (range 0 N) = choose (t + S r) (S r).
Proof.
  induction t as [|t IH]; intros N HN; rewrite range_cons by lia; cbn [zsum]; rewrite zsum_map.
  - rewrite zsum_zero.
    + cbn. unfold choose. rewrite Z.add_0_r. f_equal.
      assert (B : forall k, bin k k = 1%nat). { intros k. apply (binomial.binn k). }
      now rewrite B, (B (S r)).
    + intros k K. apply in_range in K. destruct (Z.leb_spec (k + 1) (Z.of_nat 0)); [lia|easy].
  - rewrite (zsum_ext _ (fun k => if k <=? Z.of_nat t then choose (t - Z.to_nat k + r) r else 0)).
    + rewrite IH by lia. destruct (Z.leb_spec 0 (Z.of_nat (S t))); [|lia].
      unfold choose. change (S t + S r)%nat with (S (t + S r)). rewrite binS.
      replace (S t - Z.to_nat 0 + r)%nat with (t + S r)%nat by lia. lia.
    + intros k K. apply in_range in K.
      destruct (Z.leb_spec (k + 1) (Z.of_nat (S t))), (Z.leb_spec k (Z.of_nat t)); try lia.
      do 2 f_equal. lia.
Qed.
Lemma cnt_true m dim numC nC r : 1 <= m -> forall vec, Forall (fun v => 0 <= v) vec ->
  cnt true m dim numC nC r vec = if total vec <=? m - 1 then choose (Z.to_nat (m - 1 - total vec) + r) r else 0.
Proof.
  intros Hm. induction r as [|r IH]; intros vec V; cbn [cnt].
  - cbn [keepb orb andb]. unfold choose. now rewrite bin0.
  - assert (0 <= total vec) by (apply zsum_nonneg; now apply Forall_forall).
    rewrite (zsum_ext _ (fun k => if total vec + k <=? m - 1 then choose (Z.to_nat (m - 1 - total vec - k) + r) r else 0)).
    2: { intros k K. apply in_range in K. rewrite IH by (constructor; [lia|easy]). cbn [total zsum]. fold (total vec).
         rewrite (Z.add_comm k). now rewrite Z.sub_add_distr. }
    destruct (Z.leb_spec (total vec) (m - 1)) as [L|L].
    + rewrite <- (hockey r (Z.to_nat (m - 1 - total vec)) m) by lia.
      apply zsum_ext. intros k K. apply in_range in K.
      destruct (Z.leb_spec (total vec + k) (m - 1)), (Z.leb_spec k (Z.of_nat (Z.to_nat (m - 1 - total vec)))); try lia.
      do 2 f_equal. lia.
    + apply zsum_zero. intros k K. apply in_range in K. destruct (Z.leb_spec (total vec + k) (m - 1)); [lia|easy].
Qed.
Lemma cnt_product_count m dim numC nC : 1 <= m -> 1 <= dim -> cnt true m dim numC nC (Z.to_nat dim) [] = product_count dim m.
Proof.
  intros. rewrite cnt_true; [|easy|constructor]. cbn [total zsum].
  destruct (Z.leb_spec 0 (m - 1)); [|lia]. unfold product_count. f_equal. lia.
Qed.
Lemma product_count_ge m dim : 1 <= m -> 1 <= dim -> dim * (m - 1) < product_count dim m.
Proof.
  intros. pose proof (choose_ge (Z.to_nat (m - 1)) (Z.to_nat dim)) as P. unfold product_count, choose.
  replace (Z.to_nat (m - 1 + dim)) with (Z.to_nat (m - 1) + Z.to_nat dim)%nat by lia. nia.
Qed.

(** ** The n-dimensional classes *)
Lemma nbasis_head dim : 1 <= dim <= INT_MAX ->
  new dim = Some dim /\ copy dim dim dim = Some tt /\ for_ 0 dim (fun k => at_ dim k ;;; at_ dim k ;;; at_ dim k) = Some tt /\ (dim - 1)%int = Some (dim - 1).
Proof.
  intros. repeat split.
  - apply new_ok; [easy|lia].
  - eapply copy_ok; [easy|lia..].
  - loop. cmds.
  - eapply iop_ok; [easy|easy|rng].
Qed.
Lemma nbasis_ok k dim ncDim1 nC m : 1 <= dim -> fits dim -> 1 <= m -> fits m -> 0 <= ncDim1 -> Z.of_nat (length nC) = dim * ncDim1 ->
  fits (dim * ncDim1) -> fits (product_count dim m) ->
  nbasis_int k dim dim ncDim1 nC m
  = Some (NObj k dim m ncDim1 nC (cnt false m dim ncDim1 nC (Z.to_nat dim) []) (product_count dim m)).
Proof.
  intros Hd Hd' Hm Hm' Hc L F1 F2. rewrite fits_max in *.
  destruct (nbasis_head dim) as (E1 & E2 & E3 & E4); [lia|].
  pose proof (product_count_ge m dim Hm Hd).
  pose proof (cnt_full_ge false m dim ncDim1 nC (Z.to_nat dim) []) as G. pose proof (cnt_nonneg false m dim ncDim1 nC (Z.to_nat dim) []).
  rewrite cnt_product_count in G by lia.
  unfold nbasis_int. rewrite E1. cbn [bind]. rewrite E2. cbn [bind].
  rewrite (new_ok _ (dim * ncDim1)); [|eapply iop_ok; [easy|easy|]; rng|lia]. cbn [bind].
  rewrite (copy_ok _ _ _ (dim * ncDim1)); [|eapply iop_ok; [easy|easy|]; rng|lia..]. cbn [bind]. rewrite E3. cbn [bind]. rewrite E4. cbn [bind].
  rewrite (products_ok false m dim ncDim1 nC _ ltac:(lia) ltac:(lia) Hc INT_MAX); try easy; try lia.
  cbn [bind]. rewrite (products_ok true m dim ncDim1 nC _ ltac:(lia) ltac:(lia) Hc INT_MAX); try easy; try lia.
  - cbn [bind]. rewrite cnt_product_count by lia. f_equal.
  - rewrite cnt_product_count by lia. lia.
Qed.
Lemma nbasis_some k dim ncDim1 nC m o : 1 <= dim -> fits dim -> 1 <= m -> fits m -> 0 <= ncDim1 ->
  nbasis_int k dim dim ncDim1 nC m = Some o -> fits (dim * ncDim1) /\ fits (product_count dim m).
Proof.
  intros Hd Hd' Hm Hm' Hc H. rewrite fits_max in *.
  destruct (nbasis_head dim) as (E1 & E2 & E3 & E4); [lia|].
  unfold nbasis_int in H. rewrite E1 in H. cbn [bind] in H. rewrite E2 in H. cbn [bind] in H.
  destruct (new (dim * ncDim1)) eqn:N; [|easy]. split.
  - destruct (Z.le_gt_cases (dim * ncDim1) INT_MAX); [easy|].
    rewrite new_overflow in N; [easy|lia|lia|]. rewrite fits_max. lia.
  - cbn [bind] in H. destruct (copy _ _ _); [|easy]. cbn [bind] in H. rewrite E3 in H. cbn [bind] in H. rewrite E4 in H. cbn [bind] in H.
    destruct (products false _ _ _ _ _ _ _ _); [|easy]. cbn [bind] in H.
    destruct (products true _ _ _ _ _ _ _ _) as [y|] eqn:P; [|easy].
    apply products_some in P; [rewrite cnt_product_count in P|..]; unfold fits, INT_MAX in *; lia.
Qed.

Section NHint.
Context (k : bclass) (dim m numC : Z) (nC : list Z) (n : Z) (d : list nat) (full : bool).
Context (Hk : n_d k = true) (Hd : 1 <= dim <= INT_MAX) (Hm : 1 <= m <= INT_MAX) (Hc : 0 <= numC) (Hn : 0 <= n <= INT_MAX).
Context (L : Z.of_nat (length nC) = dim * numC) (F1 : dim * numC <= INT_MAX) (F2 : product_count dim m <= INT_MAX).
Let N := cnt full m dim numC nC (Z.to_nat dim) [].
Let o := NObj k dim m numC nC (cnt false m dim numC nC (Z.to_nat dim) []) (product_count dim m).

Lemma nhint_ok : n * m * dim <= INT_MAX -> n * N <= INT_MAX -> nhint_int o n d N (N * n) full = Some tt.
Proof.
  intros A B. assert (M0 : 0 <= m * n) by nia. assert (M1 : m * n <= INT_MAX) by nia.
  assert (D0 : 0 <= n * dim) by nia. assert (D1 : n * dim <= n * m * dim) by nia.
  assert (N0 : 0 <= N) by apply cnt_nonneg. assert (B0 : 0 <= n * N) by nia.
  assert (A0 : 0 <= n * m * dim) by nia.
  unfold nhint_int, o. cbn [s_m s_dim s_cls s_numC s_nC].
  rewrite new_nm by lia. cbn [bind].
  rewrite (new_ok _ (n * m * dim)); [|val|lia]. cbn [bind].
  rewrite (new_ok _ (n * dim)); [|val|lia]. cbn [bind].
  apply seq_ok.
  { loop. loop. pose proof (cell n dim k0 k1). assert (dim * n = n * dim) by lia.
    assert (0 <= k0 * n <= n * dim - n) by nia. cmds. }
  apply seq_ok.
  { loop. assert (0 <= k0 * n <= n * dim - n) by nia.
    assert (K : 0 <= k0 * m <= dim * m - m) by nia. assert (KK : 0 <= k0 * m * n <= n * m * dim - m * n) by nia.
    assert (dim * m <= INT_MAX \/ n = 0) as [DM|Z0] by (destruct (Z.eq_dec n 0); [now right|left; nia]).
    - rewrite (iop_ok _ _ _ k0 n); [|easy|easy|rng]. cbn [bind]. apply seq_ok.
      + apply hint_ok; try lia. now destruct k.
      + loop. cmds.
    - subst n. rewrite (iop_ok _ _ _ k0 0); [|easy|easy|rng]. cbn [bind]. apply seq_ok.
      + apply hint_ok; try lia. now destruct k.
      + eapply for_ok; [val|]. intros. cbn beta in *. lia. }
  apply seq_ok. { loop. cmds. }
  destruct (nbasis_head dim Hd) as (E1 & _ & _ & E4). rewrite E1. cbn [bind]. rewrite E4. cbn [bind].
  rewrite (products_ok full m dim numC nC _ Hm Hd Hc N); try easy; try lia.
  - pose proof (product_count_ge m dim). lia.
  - pose proof (cnt_full_ge full m dim numC nC (Z.to_nat dim) []) as G. rewrite cnt_product_count in G; unfold N; lia.
  - intros vec c LV V C. loop. loop.
    assert (0 <= nth (Z.to_nat k1) vec 0 < m).
    { rewrite Forall_forall in V. apply V, nth_In. lia. }
    assert (0 <= m * n * k1 <= n * m * dim - m * n) by nia.
    pose proof (cell m n k0 (nth (Z.to_nat k1) vec 0)). pose proof (cell N n k0 c).
    assert (k0 * m = m * k0) by lia. assert (k0 * N = N * k0) by lia. cmds.
Qed.
Lemma nH_ok : n * m * dim <= INT_MAX -> n * N <= INT_MAX -> nH_int o n d full = Some (n, N).
Proof.
  intros A B. assert (N0 : 0 <= N) by apply cnt_nonneg.
  assert (E : (if full then s_numFull o else s_num o) = N).
  { unfold N, o. destruct full; [|easy]. cbn. now rewrite cnt_product_count by lia. }
  unfold nH_int. rewrite E. rewrite (new_ok _ (N * n)); [|eapply iop_ok; [easy|easy|]; assert (0 <= N * n) by nia; rng|nia].
  cbn [bind]. now rewrite nhint_ok.
Qed.
Lemma nH_some y : nH_int o n d full = Some y -> n * m * dim <= INT_MAX /\ n * N <= INT_MAX.
Proof.
  assert (N0 : 0 <= N) by apply cnt_nonneg.
  assert (E : (if full then s_numFull o else s_num o) = N).
  { unfold N, o. destruct full; [|easy]. cbn. now rewrite cnt_product_count by lia. }
  unfold nH_int. rewrite E. destruct (Z.le_gt_cases (n * N) INT_MAX) as [B|B].
  2: { rewrite new_overflow; [easy|lia|lia|]. rewrite fits_max. lia. }
  intros H. split; [|easy]. destruct (Z.le_gt_cases (n * m * dim) INT_MAX) as [A|A]; [easy|exfalso].
  destruct (new (N * n)); [|easy]. cbn [bind] in H. unfold nhint_int, o in H. cbn [s_m s_dim] in H.
  destruct (Z.le_gt_cases (n * m) INT_MAX) as [C|C].
  - rewrite (new_ok _ (n * m)) in H; [|eapply iop_ok; [easy|easy|]; assert (0 <= n * m) by nia; rng|nia]. cbn [bind] in H.
    rewrite (iop_ok Z.mul (lit n) (lit m) n m) in H; [|easy|easy|assert (0 <= n * m) by nia; rng].
    change (Some (n * m)) with (lit (n * m)) in H.
    rewrite (new_overflow (n * m) dim) in H; [easy|nia|lia|]. rewrite fits_max. lia.
  - rewrite new_overflow in H; [easy|lia|lia|]. rewrite fits_max. lia.
Qed.
End NHint.

(** ** The n-dimensional ELM classes *)
Notation real_nC := removed.
Lemma real_nC_le nC : 0 <= numC_of (real_nC nC) <= numC_of nC.
Proof. unfold removed, numC_of. destruct (forallb _ _); cbn; lia. Qed.

Lemma nelm_ok k dim nC m : 1 <= dim -> fits dim -> 1 <= m -> fits m -> fits (numC_of nC) ->
  fits (dim * numC_of nC) -> fits (dim * m) -> nelm_int k dim nC m = Some (EObj k dim m (real_nC nC)).
Proof.
  intros Hd Hd' Hm Hm' Hc F1 F2. rewrite fits_max in *.
  destruct (nbasis_head dim) as (E1 & E2 & E3 & _); [lia|]. pose proof (real_nC_le nC).
  assert (0 <= numC_of nC <= dim * numC_of nC) by (unfold numC_of; nia). assert (0 <= dim * m) by nia.
  unfold nelm_int. rewrite E1. cbn [bind]. rewrite E2. cbn [bind].
  rewrite (new_ok _ (dim * numC_of nC)); [|eapply iop_ok; [easy|easy|]; rng|lia]. cbn [bind].
  rewrite (copy_ok _ _ _ (numC_of nC)); [|easy|lia..]. cbn [bind]. rewrite E3. cbn [bind].
  rewrite (for_ok 0 (lit (numC_of nC)) (numC_of nC)); [|easy|intros; cmds]. cbn [bind]. fold (real_nC nC).
  rewrite (iop_ok Z.sub _ _ m (numC_of (real_nC nC))); [|easy|easy|rng]. cbn [bind].
  rewrite (new_ok _ (dim * m)); [|eapply iop_ok; [easy|easy|]; rng|lia]. cbn [bind].
  rewrite (new_ok _ m); [|easy|lia]. cbn [bind].
  rewrite (for_ok 0 (dim * m)%int (dim * m)); [|eapply iop_ok; [easy|easy|]; rng|intros; cmds]. cbn [bind].
  rewrite (for_ok 0 (lit m) m); [easy|easy|intros; cmds].
Qed.
Lemma nelm_some k dim nC m o : 1 <= dim -> fits dim -> 1 <= m -> fits m -> fits (numC_of nC) ->
  nelm_int k dim nC m = Some o -> fits (dim * numC_of nC) /\ fits (dim * m).
Proof.
  intros Hd Hd' Hm Hm' Hc H. rewrite fits_max in *.
  destruct (nbasis_head dim) as (E1 & E2 & E3 & _); [lia|].
  unfold nelm_int in H. rewrite E1 in H. cbn [bind] in H. rewrite E2 in H. cbn [bind] in H.
  destruct (new (dim * numC_of nC)) eqn:N; [|easy]. split.
  - destruct (Z.le_gt_cases (dim * numC_of nC) INT_MAX); [easy|].
    rewrite new_overflow in N; [easy|lia|unfold numC_of; lia|]. rewrite fits_max. lia.
  - destruct (Z.le_gt_cases (dim * m) INT_MAX) as [A|A]; [easy|]. cbn [bind] in H.
    rewrite (new_overflow dim m) in H; [|lia|lia|rewrite fits_max; lia].
    destruct (copy _ _ _); [|easy]. cbn [bind] in H. rewrite E3 in H. cbn [bind] in H.
    destruct (for_ _ _ _); [|easy]. cbn [bind] in H. now destruct (m - _)%int.
Qed.
Lemma orders_ok dim d : Z.of_nat (length d) <= dim -> Z.of_nat (list_sum d) <= INT_MAX -> orders_int dim d = Some (Z.of_nat (list_sum d)).
Proof.
  intros L S. unfold orders_int.
  assert (G : forall d' pre, d = pre ++ d' -> forall s, s = Z.of_nat (list_sum pre) ->
    fold_left (fun s i => at_ dim (lit (Z.of_nat i)) ;;; (s + lit (Z.of_nat (nth i d 0%nat)))%int) (seq (length pre) (length d')) (Some s)
    = Some (Z.of_nat (list_sum d))).
  { induction d' as [|v d' IH]; intros pre E s Hs; cbn [length seq fold_left].
    - rewrite app_nil_r in E. now subst.
    - rewrite (at_ok dim _ (Z.of_nat (length pre))); [|easy|rewrite E, app_length in L; cbn in L; lia]. cbn [bind].
      assert (V : nth (length pre) d 0%nat = v) by (rewrite E, app_nth2, Nat.sub_diag by lia; easy). rewrite V.
      assert (Q : list_sum d = (list_sum pre + (v + list_sum d'))%nat) by (rewrite E, list_sum_app; easy).
      rewrite (iop_ok Z.add _ _ s (Z.of_nat v)); [|easy|easy|rng].
      specialize (IH (pre ++ [v])). rewrite app_length in IH. cbn [length] in IH. rewrite Nat.add_1_r in IH. apply IH.
      + now rewrite <- app_assoc.
      + rewrite list_sum_app. cbn. lia. }
  now apply (G d []).
Qed.

Section NElm.
Context (k : bclass) (dim m : Z) (nC : list Z) (n : Z) (d : list nat).
Context (Hk : n_elm k = true) (Hd : 1 <= dim <= INT_MAX) (Hm : 1 <= m <= INT_MAX) (Hn : 0 <= n <= INT_MAX) (R : removable m nC).
Context (Hdm : dim * m <= INT_MAX) (Ld : Z.of_nat (length d) <= dim) (Sd : Z.of_nat (list_sum d) <= INT_MAX).
Let o := EObj k dim m nC.

Section Ok.
Context (Hmn : m * n <= INT_MAX) (Hnd : n * dim <= INT_MAX).
Lemma dot_pass_ok x F : n * dim <= x -> m * n <= F -> dot_pass dim m n x F (dim * m) m = Some tt.
Proof.
  intros X F'. unfold dot_pass. loop. loop. pose proof (cell m n k0 k1). cmds.
  loop. assert (0 <= k2 * m <= dim * m - m) by nia. assert (0 <= k2 * n <= n * dim - n) by nia. cmds.
Qed.
Lemma pow_pass_ok F : m * n <= F -> pow_pass m n d F (dim * m) = Some tt.
Proof.
  intros F'. unfold pow_pass. loop. loop. pose proof (cell m n k0 k1). cmds.
  loop. assert (0 <= k2 * m <= dim * m - m) by nia. cmds.
Qed.
Lemma relu_scan_ok : forall d' i h, 0 <= i -> i + Z.of_nat (length d') <= dim -> -1 <= h < dim ->
  exists z h', relu_scan dim d' i h = Some (z, h') /\ -1 <= h' < dim.
Proof.
  induction d' as [|v d' IH]; intros i h I L' H; cbn [relu_scan length] in *; [now exists false, h|].
  destruct (_ || _); [now exists true, h|]. destruct (v =? 1)%nat.
  - rewrite (at_ok dim _ i); [|easy|lia]. cbn [bind]. apply IH; lia.
  - apply IH; lia.
Qed.
Lemma nelmhint_ok x F : n * dim <= x -> m * n <= F -> nelmhint_int o n d x F = Some tt.
Proof.
  intros X F'. pose proof (n_fits m n ltac:(lia) ltac:(lia) Hmn) as NF.
  assert (D := fun F f => dot_pass_ok x F X f). assert (P := pow_pass_ok F F').
  assert (O := orders_ok dim d Ld Sd).
  assert (G : (dot_pass dim m n x F (dim * m) m ;;; s <- orders_int dim d ;;
      (if (1 <=? s) && (s <=? 8) then pow_pass m n d F (dim * m) else skip)) = Some tt).
  { apply seq_ok; [now apply D|]. rewrite O. cbn [bind]. now destruct (_ && _). }
  unfold nelmhint_int, o. cbn [e_m e_dim e_cls]. destruct k; try exact G.
  - destruct (relu_scan_ok d 0 (-1)) as (z & h & E & Hh); try lia. rewrite E. cbn [bind fst snd].
    apply seq_ok.
    + destruct z; [|now apply D]. loop. loop. pose proof (cell m n k0 k1). cmds.
    + destruct (Z.eqb_spec h (-1)); [easy|]. loop. loop. pose proof (cell m n k0 k1).
      assert (0 <= h * m <= dim * m - m) by nia. cmds.
  - rewrite O. cbn [bind]. apply seq_ok; [now apply D|easy].
  - rewrite new_nm by lia. cbn [bind]. rewrite O. cbn [bind].
    assert (A : elm_again m n (m * n) m = Some tt) by (apply elm_again_ok; lia).
    destruct (_ =? 0); [now apply D|]. repeat apply seq_ok; [apply D; lia|easy|].
    destruct (_ <=? 8); [|easy]. now repeat apply seq_ok.
Qed.
Lemma nelmH_ok (full : bool) : nelmH_int o n d full = Some (n, if full then m else m - numC_of nC).
Proof.
  pose proof (numC_le m nC ltac:(lia) R) as NC. unfold nelmH_int. cbn [e_m e_dim e_nC o].
  assert (E : (if full return option Z then lit m else (m - numC_of nC)%int) = Some (if full then m else m - numC_of nC)).
  { destruct full; [easy|]. eapply iop_ok; [easy|easy|]. unfold numC_of in *. rng. }
  rewrite E. cbn [bind]. set (mOut := if full then m else _).
  assert (0 <= mOut <= m) by (unfold mOut, numC_of in *; destruct full; lia).
  assert (0 <= mOut * n <= m * n) by nia. assert (0 <= n * dim) by nia.
  rewrite (new_ok _ (mOut * n)); [|val|nia]. cbn [bind].
  rewrite (new_ok _ (n * dim)); [|val|lia]. cbn [bind].
  rewrite (for_ok 0 (lit dim) dim); [|easy|].
  2: { intros j J. loop. assert (dim * n = n * dim) by lia. assert (0 <= j * n <= n * dim - n) by nia. cmds. }
  cbn [bind]. assert (Q : forall F, m * n <= F -> nelmhint_int (EObj k dim m nC) n d (n * dim) F = Some tt).
  { intros F' HF. apply nelmhint_ok; lia. }
  assert (S : (dark <- new (m * n) ;; (nelmhint_int (EObj k dim m nC) n d (n * dim) dark ;;; columns (range 0 m) nC m n (m - numC_of nC) ((m - numC_of nC) * n) dark (-1)))
    = Some tt).
  { assert (0 <= m * n) by nia. rewrite (new_ok _ (m * n)); [|val|lia]. cbn [bind]. rewrite Q by lia. cbn [bind].
    pose proof (kept_length m nC ltac:(lia) R) as K. unfold numC_of in *.
    apply columns_ok; try lia. apply Forall_forall. intros j. apply in_range. }
  unfold mOut in *. destruct nC as [|c r] eqn:EN.
  - rewrite Q; [easy|]. destruct full; cbn; nia.
  - destruct full; [rewrite Q; [easy|lia]|].
    match goal with |- bind ?c _ = _ => replace c with (Some tt) by (symmetry; exact S) end. easy.
Qed.
End Ok.
Lemma nelmH_some full y : nelmH_int o n d full = Some y -> n * m <= INT_MAX /\ n * dim <= INT_MAX.
Proof.
  intros H. pose proof (numC_le m nC ltac:(lia) R) as NC. unfold nelmH_int in H. cbn [e_m e_dim e_nC o] in H.
  assert (E : (if full return option Z then lit m else (m - numC_of nC)%int) = Some (if full then m else m - numC_of nC)).
  { destruct full; [easy|]. eapply iop_ok; [easy|easy|]. unfold numC_of in *. rng. }
  rewrite E in H. cbn [bind] in H. destruct (new (_ * n)) eqn:F; [|easy]. cbn [bind] in H.
  destruct (Z.le_gt_cases (n * dim) INT_MAX) as [B|B].
  2: { rewrite (new_overflow n dim) in H; [easy|lia|lia|]. rewrite fits_max. lia. }
  split; [|easy]. destruct (Z.le_gt_cases (n * m) INT_MAX) as [A|A]; [easy|exfalso].
  assert (W : new (m * n) = None). { apply new_overflow; [lia|lia|]. rewrite fits_max. lia. }
  destruct (new (n * dim)); [|easy]. cbn [bind] in H. destruct (for_ _ _ _); [|easy]. cbn [bind] in H.
  destruct nC as [|c r].
  - assert (Q : (if full then m else m - numC_of []) = m) by (destruct full; cbn; lia). rewrite Q, W in F. easy.
  - destruct full; [now rewrite W in F|]. now rewrite W in H.
Qed.
End NElm.
