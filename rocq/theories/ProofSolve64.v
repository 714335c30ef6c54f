(** Proofs for C103. *)
From Coq Require Import List Bool ZArith Reals Lia Lra.
From Flocq Require Import Core BinarySingleNaN.
From Verif Require Import Base Numbers64 ModelSolve ModelSolve64 SpecSolve64.
Import ListNotations.

Lemma gt64_nan x y : is_nan x = true \/ is_nan y = true -> gt64 x y = false.
Proof. unfold gt64. intros [H|H]; destruct x, y; try discriminate; reflexivity. Qed.
(** the order of the doubles as an order of numbers *)
Definition up (x : f64) : Z * R := match x with B754_infinity s => ((if s then -1 else 1)%Z, 0%R) | _ => (0%Z, val x) end.
Lemma gt64_spec x y : is_nan x = false -> is_nan y = false ->
  gt64 x y = true <-> ((fst (up y) < fst (up x))%Z \/ (fst (up y) = fst (up x) /\ (snd (up y) < snd (up x))%R)).
Proof.
  intros Hx Hy. destruct (is_finite x) eqn:Fx; destruct (is_finite y) eqn:Fy.
  - unfold gt64. rewrite Bcompare_correct by assumption.
    assert (Ux : up x = (0%Z, val x)) by (destruct x; try discriminate; reflexivity).
    assert (Uy : up y = (0%Z, val y)) by (destruct y; try discriminate; reflexivity).
    rewrite Ux, Uy. cbn [fst snd]. unfold val.
    destruct (Rcompare_spec (B2R x) (B2R y)); split; intros H0; try discriminate; try (destruct H0 as [H0|[_ H0]]; [lia|lra]); try reflexivity.
    right. split; [reflexivity|assumption].
  - destruct y as [|s| |]; try discriminate. unfold gt64. destruct x; try discriminate; destruct s; cbn; split; intros H; try discriminate; try reflexivity; try (left; lia); try (destruct H as [H|[H _]]; lia).
  - destruct x as [|s| |]; try discriminate. unfold gt64. destruct y; try discriminate; destruct s; cbn; split; intros H; try discriminate; try reflexivity; try (left; lia); try (destruct H as [H|[H _]]; lia).
  - destruct x as [|s| |]; try discriminate. destruct y as [|s'| |]; try discriminate.
    destruct s, s'; cbn; split; intros H; try discriminate; try reflexivity; try (left; lia); try (destruct H as [H|[H H']]; try lia; lra).
Qed.
Lemma gt64_trans x y z : gt64 x y = true -> gt64 y z = true -> gt64 x z = true.
Proof.
  intros H1 H2.
  assert (N : forall a b, gt64 a b = true -> is_nan a = false /\ is_nan b = false).
  { intros a b H. destruct (is_nan a) eqn:E; [rewrite gt64_nan in H by auto; discriminate|].
    destruct (is_nan b) eqn:E'; [rewrite gt64_nan in H by auto; discriminate|]. split; reflexivity. }
  destruct (N _ _ H1) as [Nx Ny], (N _ _ H2) as [_ Nz].
  rewrite gt64_spec in * by assumption. destruct H1 as [H1|[H1 H1']], H2 as [H2|[H2 H2']]; try (left; lia).
  right. split; [lia|lra].
Qed.
Lemma nan_abs x : is_nan (Babs x) = is_nan (x : f64).
Proof. destruct x; reflexivity. Qed.
Lemma max64_nan x y : is_nan (max64 x y) = is_nan x || is_nan y.
Proof. unfold max64. destruct (is_nan x) eqn:E; [exact E|]. destruct (is_nan y) eqn:E'; [exact E'|]. destruct (gt64 y x); assumption. Qed.
Lemma max64_gt x y t : is_nan x = false -> is_nan y = false -> gt64 (max64 x y) t = gt64 x t || gt64 y t.
Proof.
  intros Hx Hy. unfold max64. rewrite Hx, Hy. destruct (gt64 y x) eqn:E.
  - destruct (gt64 x t) eqn:Ex; [|reflexivity]. cbn. exact (gt64_trans _ _ _ E Ex).
  - destruct (gt64 x t) eqn:Ex; [reflexivity|]. cbn. destruct (gt64 y t) eqn:Ey; [|reflexivity]. exfalso.
    assert (Ht : is_nan t = false) by (destruct (is_nan t) eqn:N; [rewrite gt64_nan in Ey by auto; discriminate|reflexivity]).
    apply gt64_spec in Ey; [|assumption..].
    assert (H1 : ~ gt64 y x = true) by congruence. assert (H2 : ~ gt64 x t = true) by congruence.
    rewrite gt64_spec in H1, H2 by assumption.
    destruct (Z_lt_le_dec (fst (up x)) (fst (up y))); [apply H1; left; assumption|].
    destruct (Z_lt_le_dec (fst (up t)) (fst (up x))); [apply H2; left; assumption|].
    destruct Ey as [Ey|[E1 E2]]; [lia|].
    destruct (Rle_or_lt (snd (up y)) (snd (up x))); [|apply H1; right; split; [lia|assumption]].
    destruct (Rle_or_lt (snd (up x)) (snd (up t))); [|apply H2; right; split; [lia|assumption]]. lra.
Qed.
Lemma fold_max l : forall m, is_nan (fold_left (fun m x => max64 m (Babs x)) l m) = is_nan m || existsb is_nan l.
Proof. induction l as [|x l IH]; intros m; cbn [fold_left existsb]; [rewrite orb_false_r; reflexivity|]. rewrite IH, max64_nan, nan_abs, orb_assoc. reflexivity. Qed.
Lemma fold_gt l t : forall m, is_nan m = false -> existsb is_nan l = false ->
  gt64 (fold_left (fun m x => max64 m (Babs x)) l m) t = gt64 m t || existsb (fun x => gt64 (Babs x) t) l.
Proof.
  induction l as [|x l IH]; intros m Hm Hl; cbn [fold_left existsb] in *; [rewrite orb_false_r; reflexivity|].
  apply orb_false_iff in Hl as [Hx Hl]. rewrite IH; [|rewrite max64_nan, nan_abs, Hm, Hx; reflexivity|assumption].
  rewrite max64_gt, orb_assoc; [reflexivity|assumption|rewrite nan_abs; assumption].
Qed.
Lemma maxabs64_nan l : is_nan (maxabs64 l) = true <-> has_nan l.
Proof. unfold maxabs64. rewrite fold_max. cbn. rewrite existsb_exists. reflexivity. Qed.
Lemma ninf_gt t : gt64 (B754_infinity true) t = false.
Proof. destruct t as [|[]| |]; reflexivity. Qed.
Lemma small_gt tol x : ~ nan x -> ~ nan tol -> (0 <= val tol)%R -> tol <> B754_infinity true -> gt64 (Babs x) tol = false <-> small tol x.
Proof.
  intros Hx Ht H0 Hi. assert (Nx : is_nan (Babs x) = false) by (rewrite nan_abs; apply not_true_is_false, Hx).
  assert (Nt : is_nan tol = false) by (apply not_true_is_false, Ht).
  rewrite <- not_true_iff_false, gt64_spec by assumption. unfold small.
  destruct x as [s|s| |s m e He]; [| |exfalso; apply Hx; reflexivity|].
  - split.
    + intros _. split; [exact Hx|]. destruct tol as [|[]| |]; try (left; reflexivity); try congruence; try discriminate Nt;
        right; (split; [reflexivity|]); (split; [reflexivity|]); cbn [val B2R]; rewrite Rabs_R0; exact H0.
    + intros _ H. destruct tol as [|[]| |]; try congruence; try discriminate Nt; cbn in H; unfold val in *; cbn in *; destruct H as [H|[H H']]; try lia; lra.
  - split.
    + intros H. split; [exact Hx|]. destruct tol as [|[]| |]; try congruence; try (left; reflexivity); try discriminate Nt; exfalso; apply H; left; cbn; lia.
    + intros [_ [->|[H _]]]; [|discriminate]. cbn. intros [H|[_ H]]; [lia|lra].
  - set (x := B754_finite s m e He) in *.
    assert (Ua : up (Babs x) = (0%Z, Rabs (val x))) by (unfold val; rewrite <- B2R_Babs; reflexivity).
    rewrite Ua. cbn [fst snd]. split.
    + intros H. split; [exact Hx|]. destruct tol as [s'|[]| |s' m' e' He'] eqn:Et; try congruence; try (left; reflexivity); try discriminate Nt; right;
        (split; [reflexivity|]); (split; [reflexivity|]); apply Rnot_lt_le; intros Hl; apply H; right; split; try reflexivity; exact Hl.
    + intros [_ [->|(_ & Ft & Hle)]]; [cbn; intros [H|[H _]]; lia|].
      assert (Ut : up tol = (0%Z, val tol)) by (destruct tol; try discriminate; reflexivity).
      rewrite Ut. cbn [fst snd]. intros [H|[_ H]]; [lia|lra].
Qed.
(** the two tests of the loop *)
Lemma maxabs64_gt tol l : ~ nan tol -> (0 <= val tol)%R -> tol <> B754_infinity true ->
  gt64 (maxabs64 l) tol = true <-> ~ has_nan l /\ ~ within tol l.
Proof.
  intros Ht H0 Hi. destruct (is_nan (maxabs64 l)) eqn:En.
  - rewrite gt64_nan by auto. apply maxabs64_nan in En. split; [discriminate|]. intros [H _]. contradiction.
  - assert (Hn : ~ has_nan l) by (rewrite <- maxabs64_nan; congruence).
    assert (Ex : existsb is_nan l = false).
    { apply not_true_is_false. intros H. apply existsb_exists in H. apply Hn. exact H. }
    unfold maxabs64. rewrite fold_gt by (try reflexivity; exact Ex). rewrite ninf_gt. cbn [orb].
    rewrite existsb_exists. split.
    + intros (x & Hx & Hg). split; [exact Hn|]. intros Hw. specialize (Hw x Hx).
      apply small_gt in Hw; try assumption; [congruence|]. intros N. apply Hn. exists x. split; assumption.
    + intros [_ Hw]. destruct (existsb (fun x => gt64 (Babs x) tol) l) eqn:E; [apply existsb_exists in E; exact E|]. exfalso. apply Hw.
      intros x Hx. apply small_gt; try assumption.
      * intros N. apply Hn. exists x. split; assumption.
      * apply not_true_is_false. intros H. assert (existsb (fun x => gt64 (Babs x) tol) l = true) by (apply existsb_exists; exists x; split; assumption). congruence.
Qed.
Lemma maxabs64_stop tol l : ~ nan tol -> (0 <= val tol)%R -> tol <> B754_infinity true ->
  gt64 (maxabs64 l) tol = false <-> has_nan l \/ within tol l.
Proof.
  intros Ht H0 Hi. rewrite <- not_true_iff_false, maxabs64_gt by assumption. split.
  - intros H. destruct (is_nan (maxabs64 l)) eqn:En; [left; apply maxabs64_nan, En|].
    right. intros x Hx. assert (Hn : ~ has_nan l) by (rewrite <- maxabs64_nan; congruence).
    assert (Nx : ~ nan x) by (intros N; apply Hn; exists x; split; assumption).
    destruct (gt64 (Babs x) tol) eqn:E; [|apply small_gt in E; assumption]. exfalso. apply H. split; [exact Hn|].
    intros Hw. specialize (Hw x Hx). apply small_gt in Hw; try assumption. congruence.
  - intros [H|H] [H1 H2]; contradiction.
Qed.
(** a step that is not a number spoils the unknown it is taken from *)
Lemma sub64_nan x d i a b : nth_error x i = Some a -> nth_error d i = Some b -> nan a \/ nan b ->
  exists c, nth_error (sub64 x d) i = Some c /\ nan c.
Proof.
  intros Ha Hb Hn. exists (Bminus mode_NE a b). split.
  - assert (E : nth_error (combine x d) i = Some (a, b)).
    { revert d i Ha Hb. induction x as [|x0 x IH]; intros [|d0 d] [|i] Ha Hb; cbn in *; try discriminate; [congruence|apply IH; assumption]. }
    exact (map_nth_error (fun p : f64 * f64 => Bminus mode_NE (fst p) (snd p)) _ _ E).
  - destruct Hn as [H|H]; destruct a, b; try discriminate; reflexivity.
Qed.
