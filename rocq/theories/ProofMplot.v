(** Proofs about matplotlib figures: cells in row-major order and the three loops of __init__. *)
From Coq Require Import List Bool Arith Ascii Sorted Lia.
From Verif Require Import Base ModelPrinter ModelMplot SpecMplot.
Import ListNotations.

(** ** Label arrays *)
Lemma norm_grid a r c : grid a r c -> exists L, norm a = Some L /\ l_r L = r /\ l_c L = c /\
  forall j k, j < r -> k < c -> at_ L j k = Some (entry a j k).
Proof.
  destruct a as [s|l|[|r0 l]|]; cbn [grid norm]; intros H; [| | | |destruct H].
  - destruct H as [-> ->]. eexists. repeat split. intros [|j] [|k] Hj Hk; try lia. reflexivity.
  - destruct H as [-> ->]. eexists. repeat split. intros j [|k] Hj Hk; [|lia]. unfold at_. cbn [l_r l_c l_d entry].
    apply Nat.ltb_lt in Hj. rewrite Hj. apply Nat.ltb_lt in Hj. cbn. rewrite nth_error_map.
    destruct (nth_error l j) eqn:E; [|apply nth_error_None in E; lia]. cbn. rewrite (nth_error_nth _ _ _ E). reflexivity.
  - destruct H as [H _]. congruence.
  - destruct H as [_ [-> H]]. assert (forallb (fun r' => length r' =? length r0) l = true) as ->.
    { apply forallb_forall. intros x Hx. apply Nat.eqb_eq. rewrite (H r0), (H x); [reflexivity|right; exact Hx|left; reflexivity]. }
    eexists. repeat split; [apply H; left; reflexivity|]. intros j k Hj Hk. unfold at_. cbn [l_r l_c l_d].
    rewrite (H r0 (or_introl eq_refl)). change (S (length l)) with (length (r0 :: l)).
    apply Nat.ltb_lt in Hj. rewrite Hj. apply Nat.ltb_lt in Hj. apply Nat.ltb_lt in Hk. rewrite Hk. apply Nat.ltb_lt in Hk.
    cbn [andb]. destruct (nth_error (r0 :: l) j) as [row|] eqn:E; [|apply nth_error_None in E; lia]. cbn [bind].
    unfold entry. rewrite (nth_error_nth _ _ _ E).
    assert (length row = c) by (apply H, (nth_error_In _ _ E)).
    apply nth_error_nth'. lia.
Qed.

Lemma norm_covers a r c : covers a r c -> exists L, norm_opt a = Some L /\
  match L with None => a = None | Some L => exists b, a = Some b /\ forall j k, j < r -> k < c -> at_ L j k = Some (entry b j k) end.
Proof.
  destruct a as [a|]; cbn; [|exists None; auto]. intros [r' [c' [G [Hr Hc]]]]. destruct (norm_grid a r' c' G) as [L [E [_ [_ H]]]].
  exists (Some L). rewrite E. split; [reflexivity|]. exists a. split; [reflexivity|]. intros j k Hj Hk. apply H; lia.
Qed.

(** ** Cells *)
Definition num (c : nat) (jk : nat * nat) : nat := fst jk * c + snd jk + 1.
Lemma in_cells r c j k : In (j, k) (cells r c) <-> j < r /\ k < c.
Proof.
  unfold cells. rewrite in_concat. split.
  - intros [l [Hl Hi]]. apply in_map_iff in Hl as [j' [<- Hj]]. apply in_map_iff in Hi as [k' [E Hk]]. injection E as -> ->.
    apply in_seq in Hj, Hk. lia.
  - intros [Hj Hk]. exists (map (fun k => (j, k)) (seq 0 c)). split; [apply in_map_iff; exists j; rewrite in_seq; auto with arith|].
    apply in_map_iff. exists k. rewrite in_seq. auto with arith.
Qed.
Lemma nums_from c n j0 : map (num c) (concat (map (fun j => map (fun k => (j, k)) (seq 0 c)) (seq j0 n))) = seq (j0 * c + 1) (n * c).
Proof.
  revert j0. induction n; intros j0; [reflexivity|]. cbn [seq map concat]. rewrite map_app, IHn, map_map.
  cbn [Nat.mul]. rewrite seq_app. f_equal.
  - unfold num. cbn [fst snd].
    assert (forall s, map (fun x => j0 * c + x + 1) (seq s c) = seq (j0 * c + 1 + s) c) as E.
    { generalize c at 2 4. induction c0; intros s; [reflexivity|]. cbn [seq map]. rewrite IHc0. f_equal; [lia|]. f_equal. lia. }
    rewrite E. f_equal. lia.
  - f_equal. lia.
Qed.
Lemma nums r c : map (num c) (cells r c) = seq 1 (r * c).
Proof. unfold cells. rewrite nums_from. reflexivity. Qed.
Lemma num_inj c j k j' k' : k < c -> k' < c -> num c (j, k) = num c (j', k') -> (j, k) = (j', k').
Proof.
  unfold num. cbn [fst snd]. intros Hk Hk' E. assert (j * c + k = j' * c + k') as E' by lia.
  assert (j = j').
  { assert ((j * c + k) / c = j) by (rewrite Nat.div_add_l by lia; rewrite (Nat.div_small k) by lia; lia).
    assert ((j' * c + k') / c = j') by (rewrite Nat.div_add_l by lia; rewrite (Nat.div_small k') by lia; lia). congruence. }
  subst. f_equal. lia.
Qed.
Lemma cells_row_major {A} r c (e : nat -> nat -> A) : map (fun jk => e (fst jk) (snd jk)) (cells r c) = row_major r c e.
Proof.
  unfold cells, row_major. generalize 0 at 2 4. induction r; intros j0; [reflexivity|]. cbn [seq map concat flat_map].
  rewrite map_app, IHr, map_map. reflexivity.
Qed.

(** ** Lists with at most one element per cell *)
Section Flat.
Variables (I A : Type) (p : I -> nat) (q : A -> nat) (F : I -> list A).
Hypothesis HF : forall i, F i = [] \/ exists a, F i = [a] /\ q a = p i.
Lemma flat_filter l i : NoDup (map p l) -> In i l -> filter (fun a => q a =? p i) (flat_map F l) = F i.
Proof.
  assert (forall i', filter (fun a => q a =? p i) (F i') = if p i' =? p i then F i' else []) as E.
  { intros i'. destruct (HF i') as [->|[a [-> <-]]]; cbn; [destruct (_ =? _); reflexivity|]. destruct (_ =? _); reflexivity. }
  induction l as [|i' l IH]; intros Hn Hi; [destruct Hi|]. cbn [flat_map]. rewrite filter_app, E. inversion Hn as [|? ? Hx Hn']; subst.
  destruct Hi as [->|Hi].
  - rewrite Nat.eqb_refl. rewrite <- (app_nil_r (F i)) at 2. f_equal.
    clear -E Hx. induction l as [|x l IH]; [reflexivity|]. cbn [flat_map]. rewrite filter_app, E.
    destruct (p x =? p i) eqn:Ex; [apply Nat.eqb_eq in Ex; exfalso; apply Hx; cbn; left; exact Ex|]. apply IH. intros H. apply Hx. right. exact H.
  - destruct (p i' =? p i) eqn:Ex; [|apply IH; assumption].
    apply Nat.eqb_eq in Ex. exfalso. apply Hx. rewrite Ex. apply in_map, Hi.
Qed.
Lemma flat_sorted l : StronglySorted lt (map p l) -> StronglySorted lt (map q (flat_map F l)).
Proof.
  assert (forall l n, (forall x, In x (map p l) -> n < x) -> Forall (lt n) (map q (flat_map F l))) as H.
  { intros l0 n Hl. apply Forall_forall. intros x Hx. apply in_map_iff in Hx as [a [<- Ha]]. apply in_flat_map in Ha as [i [Hi Ha]].
    destruct (HF i) as [E|[a' [E Ea]]]; rewrite E in Ha; [destruct Ha|]. destruct Ha as [<-|[]]. rewrite Ea. apply Hl, in_map, Hi. }
  induction l as [|i l IH]; intros Hs; [constructor|]. cbn [flat_map map] in *. inversion Hs as [|? ? Hs' Hf]; subst. rewrite map_app.
  destruct (HF i) as [->|[a [-> Ea]]]; cbn [map app]; [apply IH, Hs'|]. constructor; [apply IH, Hs'|]. rewrite Ea.
  apply H. intros x Hx. rewrite Forall_forall in Hf. apply Hf, Hx.
Qed.
End Flat.
Lemma seq_sorted n s : StronglySorted lt (seq s n).
Proof.
  revert s. induction n; intros s; [constructor|]. cbn [seq]. constructor; [apply IHn|]. apply Forall_forall. intros x Hx. apply in_seq in Hx. lia.
Qed.

(** ** The loops *)
Definition sub_of (x y : larg) (z : option larg) (c : nat) (title : nat -> nat -> option text) (jk : nat * nat) : list axes :=
  let (j, k) := jk in
  match entry x j k with None => [] | Some s => [Axes (num c (j, k)) (given z) (Some s) (entry y j k) (entry_opt z j k) (title j k)] end.
Definition no_title (j k : nat) : option text := None.

Lemma axes_loop x y z X Y Z c cs : l_c X = c ->
  (forall j k, In (j, k) cs -> at_ X j k = Some (entry x j k)) ->
  (forall j k, In (j, k) cs -> at_ Y j k = Some (entry y j k)) ->
  match Z with None => z = None | Some L => exists b, z = Some b /\ forall j k, In (j, k) cs -> at_ L j k = Some (entry b j k) end ->
  forall acc, foldM (fun (jk : nat * nat) (ax : list axes) =>
    let (j, k) := jk in
    x <- at_ X j k ;;
    match x with
    | None => Some ax
    | Some x =>
        y <- at_ Y j k ;;
        z <- match Z with None => Some None | Some Z => at_ Z j k end ;;
        Some (ax ++ [Axes (j * l_c X + k + 1) (match Z with None => false | Some _ => true end) (Some x) y z None])
    end) cs acc = Some (acc ++ flat_map (sub_of x y z c no_title) cs).
Proof.
  intros Hc HX HY HZ. induction cs as [|[j k] cs IH]; intros acc; [cbn; rewrite app_nil_r; reflexivity|].
  cbn [foldM flat_map sub_of]. rewrite (HX j k (or_introl eq_refl)). cbn [bind].
  assert (match Z with None => z = None | Some L => exists b, z = Some b /\ forall j k, In (j, k) cs -> at_ L j k = Some (entry b j k) end) as HZ'.
  { destruct Z; [|exact HZ]. destruct HZ as [b [-> H]]. exists b. split; [reflexivity|]. intros j' k' Hi. apply H. right. exact Hi. }
  specialize (IH (fun j k H => HX j k (or_intror H)) (fun j k H => HY j k (or_intror H)) HZ').
  destruct (entry x j k) as [s|]; [|cbn [bind app]; apply IH].
  rewrite (HY j k (or_introl eq_refl)). cbn [bind].
  assert (match Z with None => Some None | Some Z => at_ Z j k end = Some (entry_opt z j k)) as ->.
  { destruct Z; [destruct HZ as [b [-> H]]; apply (H j k (or_introl eq_refl))|rewrite HZ; reflexivity]. }
  cbn [bind]. rewrite IH. rewrite <- app_assoc. cbn [app]. unfold num. cbn [fst snd]. rewrite Hc.
  destruct Z; [destruct HZ as [b [-> _]]|rewrite HZ]; reflexivity.
Qed.

Definition twin_of (x tw : larg) (c : nat) (jk : nat * nat) : list (nat * option text) :=
  let (j, k) := jk in match entry x j k with None => [] | Some _ => [(num c (j, k), entry tw j k)] end.
Lemma twins_loop x y z tw X W c cs :
  (forall j k, In (j, k) cs -> at_ X j k = Some (entry x j k)) ->
  (forall j k, In (j, k) cs -> at_ W j k = Some (entry tw j k)) ->
  forall pre acc, exists n, foldM (fun (jk : nat * nat) (s : nat * list (nat * option text)) =>
    let (j, k) := jk in let (count, tw) := s in
    x0 <- at_ X j k ;;
    match x0 with
    | None => Some s
    | Some _ =>
        a <- nth_error (pre ++ flat_map (sub_of x y z c no_title) cs) count ;;
        t <- at_ W j k ;;
        Some (S count, tw ++ [(ax_num a, t)])
    end) cs (length pre, acc) = Some (n, acc ++ flat_map (twin_of x tw c) cs).
Proof.
  intros HX HW. induction cs as [|[j k] cs IH]; intros pre acc; [eexists; cbn; rewrite app_nil_r; reflexivity|].
  cbn [foldM flat_map]. rewrite (HX j k (or_introl eq_refl)). cbn [bind].
  specialize (IH (fun j k H => HX j k (or_intror H)) (fun j k H => HW j k (or_intror H))).
  cbn [sub_of twin_of]. destruct (entry x j k) as [s|]; [|cbn [app]; apply IH].
  rewrite nth_error_app2, Nat.sub_diag by lia. cbn [app nth_error bind]. rewrite (HW j k (or_introl eq_refl)). cbn [bind ax_num].
  specialize (IH (pre ++ [Axes (num c (j, k)) (given z) (Some s) (entry y j k) (entry_opt z j k) None]) (acc ++ [(num c (j, k), entry tw j k)])).
  rewrite app_length in IH. cbn [length] in IH. replace (S (length pre)) with (length pre + 1) by lia.
  rewrite <- !app_assoc in IH. cbn [app] in IH. exact IH.
Qed.

(** titles go to the subplots in turn *)
Fixpoint titled (ts : list text) (ax : list axes) : list axes :=
  match ts, ax with
  | t :: ts, a :: ax => set_title (Some t) a :: titled ts ax
  | _, _ => ax
  end.
Lemma modify_at {A} (f : A -> A) pre a r : modify f (pre ++ a :: r) (length pre) = Some (pre ++ f a :: r).
Proof. induction pre as [|b pre IH]; [reflexivity|]. cbn [app length modify]. rewrite IH. reflexivity. Qed.
Lemma modify_end {A} (f : A -> A) pre : modify f pre (length pre) = None.
Proof. induction pre as [|b pre IH]; [reflexivity|]. cbn [length modify]. rewrite IH. reflexivity. Qed.
Lemma titles_loop t T cs :
  (forall j k, In (j, k) cs -> at_ T j k = Some (entry t j k)) ->
  forall pre rest, exists n,
  let ts := the_given (map (fun jk => entry t (fst jk) (snd jk)) cs) in
  foldM (fun (jk : nat * nat) (s : nat * list axes) =>
    let (j, k) := jk in let (count, ax) := s in
    t <- at_ T j k ;;
    match t with
    | None => Some s
    | Some t => ax <- modify (set_title (Some t)) ax count ;; Some (S count, ax)
    end) cs (length pre, pre ++ rest) = if length ts <=? length rest then Some (n, pre ++ titled ts rest) else None.
Proof.
  intros HT. induction cs as [|[j k] cs IH]; intros pre rest; [exists (length pre); reflexivity|].
  specialize (IH (fun j k H => HT j k (or_intror H))).
  cbn [foldM map]. rewrite (HT j k (or_introl eq_refl)). cbn [bind fst snd].
  destruct (entry t j k) as [s|]; [|apply IH].
  unfold the_given. cbn [flat_map app]. fold (the_given (map (fun jk => entry t (fst jk) (snd jk)) cs)). destruct rest as [|a rest].
  - exists 0. rewrite app_nil_r, modify_end. reflexivity.
  - rewrite modify_at. cbn [bind length titled]. destruct (IH (pre ++ [set_title (Some s) a]) rest) as [n E]. exists n.
    cbv zeta in *. rewrite app_length in E. cbn [length] in E. rewrite <- !app_assoc in E. cbn [app] in E.
    replace (S (length pre)) with (length pre + 1) by lia. exact E.
Qed.

Definition rank (r c : nat) (x : larg) (j k : nat) : nat := length (the_given (firstn (j * c + k) (row_major r c (entry x)))).
Lemma titled_nth ts x y z c cs title pre :
  (forall l1 j k l2, cs = l1 ++ (j, k) :: l2 -> title j k = nth_error ts (length (the_given (map (fun jk => entry x (fst jk) (snd jk)) (pre ++ l1))))) ->
  titled (skipn (length (the_given (map (fun jk => entry x (fst jk) (snd jk)) pre))) ts) (flat_map (sub_of x y z c no_title) cs) = flat_map (sub_of x y z c title) cs.
Proof.
  revert pre. induction cs as [|[j k] cs IH]; intros pre Ht; [destruct (skipn _ ts); reflexivity|].
  assert (the_given (map (fun jk => entry x (fst jk) (snd jk)) (pre ++ [(j, k)])) =
          the_given (map (fun jk => entry x (fst jk) (snd jk)) pre) ++ match entry x j k with None => [] | Some s => [s] end) as E.
  { unfold the_given. rewrite map_app, flat_map_app. cbn [map flat_map fst snd]. rewrite app_nil_r. reflexivity. }
  assert (forall l1 j' k' l2, cs = l1 ++ (j', k') :: l2 -> title j' k' = nth_error ts (length (the_given (map (fun jk => entry x (fst jk) (snd jk)) ((pre ++ [(j, k)]) ++ l1))))) as Ht'.
  { intros l1 j' k' l2 Hc. rewrite <- app_assoc. apply (Ht ((j, k) :: l1) j' k' l2). rewrite Hc. reflexivity. }
  specialize (IH _ Ht'). rewrite E in IH. pose proof (Ht [] j k cs eq_refl) as H0. rewrite app_nil_r in H0.
  cbn [flat_map sub_of]. destruct (entry x j k) as [s|].
  - rewrite app_length in IH. cbn [length] in IH. set (n := length (the_given (map _ pre))) in *. cbn [app].
    rewrite H0. clear -IH. replace (n + 1) with (S n) in IH by lia. unfold no_title at 1.
    destruct (nth_error ts n) as [t|] eqn:En.
    + assert (skipn n ts = t :: skipn (S n) ts) as ->; [|cbn [titled set_title ax_num ax_3d ax_x ax_y ax_z]; rewrite IH; reflexivity].
      clear IH. revert ts En. induction n; intros [|b ts] En; try discriminate; cbn in *; [injection En as ->; reflexivity|apply IHn, En].
    + apply nth_error_None in En. rewrite skipn_all2 in IH |- * by lia. cbn [titled] in *. rewrite IH. reflexivity.
  - rewrite app_nil_r in IH. cbn [app]. exact IH.
Qed.
Lemma cells_split r c l1 j k l2 : cells r c = l1 ++ (j, k) :: l2 -> length l1 = j * c + k.
Proof.
  intros H. pose proof (nums r c) as N. rewrite H, map_app in N. cbn [map] in N.
  assert (nth_error (seq 1 (r * c)) (length l1) = Some (num c (j, k))) as E.
  { rewrite <- N, nth_error_app2; rewrite map_length; [|lia]. rewrite Nat.sub_diag. reflexivity. }
  assert (length l1 < r * c).
  { rewrite <- (seq_length (r * c) 1). apply nth_error_Some. congruence. }
  rewrite nth_error_nth' with (d := 0) in E by (rewrite seq_length; lia). injection E as E. rewrite seq_nth in E by lia. unfold num in E. cbn in E. lia.
Qed.
Lemma cells_nodup r c : NoDup (map (num c) (cells r c)).
Proof. rewrite nums. apply seq_NoDup. Qed.
Lemma the_given_length x y z c t cs : length (flat_map (sub_of x y z c t) cs) = length (the_given (map (fun jk => entry x (fst jk) (snd jk)) cs)).
Proof.
  induction cs as [|[j k] cs IH]; [reflexivity|]. unfold the_given in *. cbn [flat_map map fst snd]. rewrite !app_length, IH. cbn [sub_of].
  destruct (entry x j k); reflexivity.
Qed.

(** ** The figure *)
Lemma labelled_intro x y tw z title r c twl :
  match tw with None => twl = None | Some w => twl = Some (flat_map (twin_of x w c) (cells r c)) end ->
  labelled (Figure r c (flat_map (sub_of x y z c title) (cells r c)) twl) x y tw z title r c.
Proof.
  intros Htw.
  assert (forall i, sub_of x y z c title i = [] \/ exists a, sub_of x y z c title i = [a] /\ ax_num a = num c i) as HF.
  { intros [j k]. cbn [sub_of]. destruct (entry x j k); [right|left; reflexivity]. eexists. split; [reflexivity|]. reflexivity. }
  unfold labelled. cbn [f_r f_c f_ax f_twin]. repeat split.
  - apply flat_sorted with (p := num c); [exact HF|]. rewrite nums. apply seq_sorted.
  - intros a Ha. apply in_flat_map in Ha as [[j k] [Hi Ha]]. apply in_cells in Hi as [Hj Hk]. exists j, k. split; [exact Hj|]. split; [exact Hk|].
    destruct (HF (j, k)) as [E|[a' [E Ea]]]; rewrite E in Ha; [destruct Ha|]. destruct Ha as [<-|[]]. exact Ea.
  - intros j k Hj Hk. unfold subplots_at. cbn [f_c f_ax]. change (j * c + k + 1) with (num c (j, k)).
    rewrite (flat_filter _ _ (num c) ax_num _ HF) with (i := (j, k)); [reflexivity|apply cells_nodup|apply in_cells; auto].
  - destruct tw as [w|]; [|exact Htw]. intros j k Hj Hk. unfold twins_at. cbn [f_twin f_c]. rewrite Htw. change (j * c + k + 1) with (num c (j, k)).
    assert (forall i, twin_of x w c i = [] \/ exists a, twin_of x w c i = [a] /\ fst a = num c i) as HT.
    { intros [j' k']. cbn [twin_of]. destruct (entry x j' k'); [right|left; reflexivity]. eexists. split; reflexivity. }
    rewrite (flat_filter _ _ (num c) fst _ HT) with (i := (j, k)); [|apply cells_nodup|apply in_cells; auto].
    cbn [twin_of]. destruct (entry x j k); reflexivity.
Qed.

Theorem figure_exact x y titles tw z r c : grid x r c -> covers (Some y) r c -> covers tw r c -> covers z r c -> covers titles r c ->
  let ts := the_given (row_major r c (entry_opt titles)) in
  if length ts <=? length (the_given (row_major r c (entry x)))
  then exists f, MakePlot x y titles tw z = Some f /\ labelled f x y tw z (fun j k => nth_error ts (rank r c x j k)) r c
  else MakePlot x y titles tw z = None.
Proof.
  intros Hx Hy Htw Hz Ht ts. destruct (norm_grid x r c Hx) as [X [EX [HXr [HXc HX]]]].
  destruct (norm_covers _ _ _ Hy) as [Y [EY HY]]. destruct Y as [Y|]; [|discriminate]. destruct HY as [b [Eb HY]]. injection Eb as <-.
  cbn [norm_opt] in EY. destruct (norm y) as [Y'|] eqn:Ey; [|discriminate]. cbn [bind] in EY. injection EY as ->.
  destruct (norm_covers _ _ _ Htw) as [W [EW HW]]. destruct (norm_covers _ _ _ Hz) as [Z [EZ HZ]]. destruct (norm_covers _ _ _ Ht) as [T [ET HT]].
  unfold MakePlot. rewrite EX, Ey, EW, EZ, ET. cbn [bind].
  assert (forall j k, In (j, k) (cells r c) -> j < r /\ k < c) as Hin by (intros j k; apply in_cells).
  unfold make_axes, make_twins, add_titles. rewrite HXr.
  rewrite (axes_loop x y z X Y Z c); [|exact HXc| | |].
  2: rewrite HXc; intros j k Hi; destruct (Hin _ _ Hi); apply HX; assumption.
  2: rewrite HXc; intros j k Hi; destruct (Hin _ _ Hi); apply HY; assumption.
  2: { destruct Z; [|exact HZ]. destruct HZ as [b [-> HZ]]. exists b. split; [reflexivity|]. rewrite HXc; intros j k Hi; destruct (Hin _ _ Hi); apply HZ; assumption. }
  rewrite HXc. cbn [bind app].
  assert (exists twl, match W with None => Some None | Some W0 =>
     tw0 <- (s <- foldM (fun (jk : nat * nat) (s : nat * list (nat * option text)) =>
       let (j, k) := jk in let (count, tw1) := s in
       x0 <- at_ X j k ;;
       match x0 with
       | None => Some s
       | Some _ => a <- nth_error (flat_map (sub_of x y z c no_title) (cells r c)) count ;; t <- at_ W0 j k ;; Some (S count, tw1 ++ [(ax_num a, t)])
       end) (cells r c) (0, []) ;; Some (snd s)) ;; Some (Some tw0) end = Some twl /\
     match tw with None => twl = None | Some w => twl = Some (flat_map (twin_of x w c) (cells r c)) end) as [twl [-> Htwl]].
  { destruct W as [W|].
    - destruct HW as [w [-> HW]]. destruct (twins_loop x y z w X W c (cells r c)) with (pre := @nil axes) (acc := @nil (nat * option text)) as [n E].
      + intros j k Hi. destruct (Hin _ _ Hi); apply HX; assumption.
      + intros j k Hi. destruct (Hin _ _ Hi); apply HW; assumption.
      + cbn [app length] in E. eexists. rewrite E. cbn [bind snd]. split; reflexivity.
    - rewrite HW. exists None. split; reflexivity. }
  cbn [bind].
  assert (forall l1 j k l2, cells r c = l1 ++ (j, k) :: l2 -> length (the_given (map (fun jk => entry x (fst jk) (snd jk)) l1)) = rank r c x j k) as Hrank.
  { intros l1 j k l2 E. unfold rank. rewrite <- cells_row_major, E, map_app, firstn_app, map_length, (cells_split _ _ _ _ _ _ E), Nat.sub_diag.
    cbn [firstn]. rewrite app_nil_r, firstn_all2; [reflexivity|]. rewrite map_length, (cells_split _ _ _ _ _ _ E). lia. }
  destruct T as [T|].
  - destruct HT as [t [-> HT]]. destruct (titles_loop t T (cells r c)) with (pre := @nil axes) (rest := flat_map (sub_of x y z c no_title) (cells r c)) as [n E].
    { intros j k Hi. destruct (Hin _ _ Hi); apply HT; assumption. }
    cbv zeta in E. cbn [app length] in E. rewrite E. clear E. rewrite the_given_length, !cells_row_major. fold ts.
    change (the_given (row_major r c (entry t))) with ts.
    destruct (length ts <=? _); [|reflexivity]. cbn [bind snd]. eexists. split; [reflexivity|].
    pose proof (titled_nth ts x y z c (cells r c) (fun j k => nth_error ts (rank r c x j k)) []) as E. cbn [the_given map flat_map length skipn app] in E.
    rewrite E; [apply labelled_intro, Htwl|]. intros l1 j k l2 Hc. rewrite <- (Hrank _ _ _ _ Hc). reflexivity.
  - subst titles. assert (ts = []) as E0.
    { unfold ts, row_major, the_given. cbn [entry_opt]. clear. generalize 0 at 2. induction r; intros s; [reflexivity|]. cbn [seq flat_map].
      rewrite flat_map_app, IHr, app_nil_r. generalize 0. clear. intros s1; revert s1; induction c; intros s1; [reflexivity|]. cbn. apply IHc. }
    rewrite E0. cbn [length Nat.leb bind]. eexists. split; [reflexivity|].
    assert (flat_map (sub_of x y z c no_title) (cells r c) = flat_map (sub_of x y z c (fun j k => nth_error [] (rank r c x j k))) (cells r c)) as ->; [|apply labelled_intro, Htwl].
    apply flat_map_ext. intros [j k]. cbn [sub_of]. unfold no_title. destruct (rank r c x j k); reflexivity.
Qed.
