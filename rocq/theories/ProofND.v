(** n-dimensional bases: the recursion enumerates multi-indices; both backends return the same matrix. *)
From Coq Require Import Reals Arith Lia Lra List Bool ZArith Permutation.
From Coquelicot Require Import Coquelicot.
From Verif Require Import Base ProofBase Numbers ModelBFPy ModelBFCpp ProofTab ProofBFPy ProofBFCpp SpecBasis
  ProofH ModelND SpecND.
Import ListNotations.
Open Scope nat_scope.

(** ** the recursion *)
Lemma for_ext {S} lo hi (b1 b2 : nat -> S -> option S) s : (forall k s, b1 k s = b2 k s) ->
  for_ lo hi b1 s = for_ lo hi b2 s.
Proof.
  intros H. unfold for_. generalize (hi - lo). intros n. revert lo s. induction n as [|n IH]; intros lo s; cbn; [reflexivity|].
  rewrite H. destruct (b2 lo s); cbn; auto.
Qed.
Fixpoint foldM {X S} (act : X -> S -> option S) (l : list X) (s : S) : option S :=
  match l with [] => Some s | x :: l' => s' <- act x s ;; foldM act l' s' end.
Lemma foldM_app {X S} (act : X -> S -> option S) l1 l2 s :
  foldM act (l1 ++ l2) s = (s' <- foldM act l1 s ;; foldM act l2 s').
Proof. revert s; induction l1 as [|x l1 IH]; intros s; cbn; [reflexivity|]. destruct (act x s); cbn; auto. Qed.

(** all vectors of length [k] with entries below [m], last entry slowest *)
Fixpoint vecs (m k : nat) : list (list nat) :=
  match k with
  | O => [[]]
  | S k' => flat_map (fun x => map (fun v => v ++ [x]) (vecs m k')) (seq 0 m)
  end.

Definition is_vec (b : buf nat) (v : list nat) : Prop :=
  blen b = length v /\ forall i, i < length v -> bcell b i = nth_error v i.

Lemma vecs_len m k v : In v (vecs m k) -> length v = k.
Proof.
  revert v; induction k as [|k IH]; cbn; intros v H.
  - destruct H as [<-|[]]. reflexivity.
  - apply in_flat_map in H as (x & _ & H). apply in_map_iff in H as (w & <- & H).
    rewrite app_length. cbn. rewrite (IH _ H). lia.
Qed.

Lemma nrec_ok {S} m (leaf : buf nat -> S -> option S) (act : list nat -> S -> option S) n
  (Hleaf : forall b v s, length v = n -> is_vec b v -> leaf b s = act v s) :
  forall dim tail vec s s', Datatypes.S dim + length tail = n -> blen vec = n ->
  (forall i, i < length tail -> bcell vec (Datatypes.S dim + i) = nth_error tail i) ->
  foldM act (map (fun v => v ++ tail) (vecs m (Datatypes.S dim))) s = Some s' ->
  exists vec', nrec m leaf dim vec s = Some (vec', s') /\ blen vec' = n /\
    forall i, i < length tail -> bcell vec' (Datatypes.S dim + i) = nth_error tail i.
Proof.
  induction dim as [|dim IH]; intros tail vec s s' Hn Hl Htail Hfold.
  - (* innermost dimension *)
    cbn [nrec]. unfold for_. rewrite Nat.sub_0_r.
    assert (Hgen : forall k lo vec s, blen vec = n ->
      (forall i, i < length tail -> bcell vec (1 + i) = nth_error tail i) ->
      foldM act (map (fun x => x :: tail) (seq lo k)) s = Some s' ->
      exists vec', iter_ k lo (fun x (st : buf nat * S) => let (vec, s) := st in
          vec <- bwr vec 0 x ;; (s <- leaf vec s ;; Some (vec, s))) (vec, s) = Some (vec', s') /\
        blen vec' = n /\ forall i, i < length tail -> bcell vec' (1 + i) = nth_error tail i).
    { clear Hfold Htail Hl vec s. induction k as [|k IHk]; intros lo vec s Hl Htail Hf; cbn in *.
      - injection Hf as <-. exists vec. auto.
      - rewrite bwr_in by lia. cbn [bind].
        erewrite (Hleaf _ (lo :: tail)); [|cbn; lia|].
        2:{ split; cbn [blen length bcell]; [lia|]. intros [|i] Hi; [reflexivity|]. cbn. apply Htail; lia. }
        destruct (act (lo :: tail) s) as [s1|]; cbn [bind] in *; [|discriminate].
        apply IHk; [exact Hl| |exact Hf]. intros i Hi; cbn. apply Htail, Hi. }
    apply Hgen; [exact Hl|exact Htail|].
    rewrite <- Hfold. f_equal. cbn [vecs map app].
    generalize (seq 0 m). induction l as [|x l IHl]; cbn; [reflexivity|]. rewrite IHl. reflexivity.
  - cbn [nrec]. unfold for_. rewrite Nat.sub_0_r.
    assert (Hgen : forall k lo vec s, blen vec = n ->
      (forall i, i < length tail -> bcell vec (Datatypes.S (Datatypes.S dim) + i) = nth_error tail i) ->
      foldM act (map (fun v => v ++ tail)
         (flat_map (fun x => map (fun v => v ++ [x]) (vecs m (Datatypes.S dim))) (seq lo k))) s = Some s' ->
      exists vec', iter_ k lo (fun x (st : buf nat * S) => let (vec, s) := st in
          vec <- bwr vec (Datatypes.S dim) x ;; nrec m leaf dim vec s) (vec, s) = Some (vec', s') /\
        blen vec' = n /\ forall i, i < length tail -> bcell vec' (Datatypes.S (Datatypes.S dim) + i) = nth_error tail i).
    { clear Hfold Htail Hl vec s. induction k as [|k IHk]; intros lo vec s Hl Htail Hf; cbn [iter_ seq flat_map] in *.
      - cbn in Hf. injection Hf as <-. exists vec. auto.
      - rewrite map_app, foldM_app in Hf. rewrite map_map in Hf.
        rewrite bwr_in by lia. cbn [bind].
        match type of Hf with bind ?a _ = _ => destruct a as [s1|] eqn:E end; cbn [bind] in Hf; [|discriminate].
        destruct (IH (lo :: tail) (Buf (blen vec) (fun j => if j =? Datatypes.S dim then Some lo else bcell vec j)) s s1)
          as (vec1 & E1 & Hl1 & Ht1).
        + cbn [length]. lia.
        + exact Hl.
        + intros [|i] Hi; cbn [bcell nth_error length] in *.
          * rewrite Nat.add_0_r, Nat.eqb_refl. reflexivity.
          * destruct (Nat.eqb_spec (Datatypes.S dim + Datatypes.S i) (Datatypes.S dim)); [lia|].
            rewrite <- Htail by lia. f_equal. lia.
        + rewrite <- E. f_equal. apply map_ext. intros v. rewrite <- app_assoc. reflexivity.
        + rewrite E1. cbn [bind]. apply IHk; [exact Hl1| |exact Hf].
          intros i Hi. specialize (Ht1 (Datatypes.S i)). cbn [length nth_error] in Ht1.
          rewrite <- Ht1 by lia. f_equal. lia. }
    apply Hgen; assumption.
Qed.

Lemma nrec_run {S} m (leaf : buf nat -> S -> option S) (act : list nat -> S -> option S) dim vec s s' :
  (forall b v s, length v = Datatypes.S dim -> is_vec b v -> leaf b s = act v s) ->
  blen vec = Datatypes.S dim -> foldM act (vecs m (Datatypes.S dim)) s = Some s' ->
  exists vec', nrec m leaf dim vec s = Some (vec', s').
Proof.
  intros Hl Hb Hf.
  destruct (nrec_ok m leaf act (Datatypes.S dim) Hl dim [] vec s s') as (v' & E & _ & _).
  - cbn; lia.
  - exact Hb.
  - cbn; lia.
  - rewrite <- Hf. f_equal. rewrite <- (map_id (vecs m (Datatypes.S dim))) at 2. apply map_ext, app_nil_r.
  - exists v'. exact E.
Qed.

(** [vecs] lists every vector with entries below [m] once *)
Lemma vecs_in m k v : In v (vecs m k) <-> length v = k /\ List.Forall (fun a => a < m) v.
Proof.
  revert v; induction k as [|k IH]; intros v; cbn [vecs].
  - split.
    + intros [<-|[]]. split; [reflexivity|constructor].
    + intros [H _]. destruct v; [left; reflexivity|discriminate].
  - rewrite in_flat_map. split.
    + intros (x & Hx%in_seq & H). apply in_map_iff in H as (w & <- & H).
      apply IH in H as [Hl Hf]. split; [rewrite app_length; cbn; lia|].
      apply Forall_app. split; [exact Hf|]. constructor; [lia|constructor].
    + intros [Hl Hf]. destruct (exists_last (l := v)) as (w & x & ->); [intros ->; discriminate|].
      apply Forall_app in Hf as [Hf Hx]. rewrite app_length in Hl; cbn in Hl.
      exists x. split; [apply in_seq; apply Forall_inv in Hx; cbn in Hx; lia|]. apply in_map_iff. exists w.
      split; [reflexivity|]. apply IH. split; [lia|exact Hf].
Qed.

Lemma NoDup_flat_map {X Y} (g : X -> list Y) l : NoDup l -> (forall x, NoDup (g x)) ->
  (forall x x' y, In y (g x) -> In y (g x') -> x = x') -> NoDup (flat_map g l).
Proof.
  intros Hl Hg Hd. induction Hl as [|x l Hx Hl IH]; cbn; [constructor|].
  assert (Hdis : forall y, In y (g x) -> ~ In y (flat_map g l)).
  { intros y Hy Hin. apply in_flat_map in Hin as (x' & Hx' & Hy').
    rewrite (Hd _ _ _ Hy Hy') in Hx. contradiction. }
  revert Hdis. generalize (Hg x). intros Hn. induction Hn as [|y l' Hy Hn IHn]; cbn; intros Hdis; [exact IH|].
  constructor.
  - rewrite in_app_iff. intros [H|H]; [contradiction|]. exact (Hdis y (or_introl eq_refl) H).
  - apply IHn. intros z Hz. apply Hdis. right; exact Hz.
Qed.

Lemma vecs_nodup m k : NoDup (vecs m k).
Proof.
  induction k as [|k IH]; cbn [vecs].
  - constructor; [easy|constructor].
  - apply NoDup_flat_map; [apply seq_NoDup| |].
    + intros x. apply FinFun.Injective_map_NoDup; [|exact IH].
      intros a b H. apply app_inj_tail in H as [-> _]. reflexivity.
    + intros x x' y H H'. apply in_map_iff in H as (a & <- & _). apply in_map_iff in H' as (b & H' & _).
      apply app_inj_tail in H' as [_ ->]. reflexivity.
Qed.

Lemma list_sum_ge v a : In a v -> a <= list_sum v.
Proof.
  induction v as [|b v IH]; [easy|]. change (list_sum (b :: v)) with (b + list_sum v).
  intros [->|H]; [lia|]. apply IH in H. lia.
Qed.

(** ** the columns *)
Definition idxs (dim m : nat) (nC : list (list Z)) (full : bool) : list (list nat) :=
  filter (py_keep m nC full) (vecs m dim).

Lemma existsb_Z a row : existsb (Z.eqb (Z.of_nat a)) row = true <-> In (Z.of_nat a) row.
Proof.
  rewrite existsb_exists. split.
  - intros (z & Hz & He). apply Z.eqb_eq in He. subst; exact Hz.
  - intros H. exists (Z.of_nat a). split; [exact H|apply Z.eqb_refl].
Qed.

Lemma forallb_false_ex {X} (p : X -> bool) l : forallb p l = false <-> exists i x, nth_error l i = Some x /\ p x = false.
Proof.
  induction l as [|x l IH]; cbn.
  - split; [discriminate|]. intros ([|i] & y & H & _); discriminate.
  - destruct (p x) eqn:E; cbn.
    + rewrite IH. split.
      * intros (i & y & H). exists (S i), y. exact H.
      * intros ([|i] & y & H & H'); [cbn in H; congruence|]. exists i, y. split; assumption.
    + split; [|auto]. intros _. exists 0, x. split; [reflexivity|exact E].
Qed.

Lemma nth_error_combine {X Y} (l : list X) (r : list Y) i p :
  nth_error (combine l r) i = Some p <-> nth_error l i = Some (fst p) /\ nth_error r i = Some (snd p).
Proof.
  revert r i; induction l as [|x l IH]; intros [|y r] [|i]; cbn;
    try (split; [discriminate|intros [? ?]; discriminate]).
  - destruct p as [a b]; cbn. split; [intros H; injection H as <- <-; auto|intros [H H']; congruence].
  - apply IH.
Qed.

Lemma idxs_in dim m nC full v : 1 <= m -> shaped nC dim (mc nC) ->
  In v (idxs dim m (md nC) full) <-> admissible dim m nC full v.
Proof.
  intros Hm HC. unfold idxs, admissible. rewrite filter_In, vecs_in. unfold py_keep.
  assert (Hsum : forall b, (list_sum v <=? m - 1) = b -> True) by auto. clear Hsum.
  split.
  - intros [[Hl Hf] H]. split; [exact Hl|]. destruct full.
    + apply Nat.leb_le in H. auto.
    + apply andb_prop in H as [H1 H2]. apply Nat.leb_le in H2. split; [exact H2|right].
      apply negb_true_iff, forallb_false_ex in H1 as (k & (a & row) & H1 & H3).
      apply nth_error_combine in H1 as [Ha Hr]. cbn in *. exists k, row, a. split; [exact Hr|split; [exact Ha|]].
      intros Hin. apply existsb_Z in Hin. congruence.
  - intros (Hl & Hs & Hor). split; [split; [exact Hl|]|].
    + apply Forall_forall. intros a Ha. apply list_sum_ge in Ha. lia.
    + apply Nat.leb_le in Hs. rewrite Hs. destruct full; [reflexivity|].
      rewrite andb_true_r. apply negb_true_iff, forallb_false_ex.
      destruct Hor as [|(k & row & a & Hr & Ha & Hn)]; [discriminate|].
      exists k, (a, row). split; [apply nth_error_combine; auto|]. cbn.
      destruct (existsb (Z.eqb (Z.of_nat a)) row) eqn:E; [|reflexivity]. apply existsb_Z in E. contradiction.
Qed.
Lemma idxs_nodup dim m nC full : NoDup (idxs dim m nC full).
Proof. apply NoDup_filter, vecs_nodup. Qed.

(** ** counting, both backends *)
Lemma count_fold {X} (p : X -> bool) l n :
  foldM (fun v n => Some (if p v then S n else n)) l n = Some (n + length (filter p l)).
Proof.
  revert n; induction l as [|x l IH]; intros n; cbn; [f_equal; lia|].
  rewrite IH. destruct (p x); cbn; f_equal; lia.
Qed.

Lemma is_vec_list b v : is_vec b v -> bto_list b = Some v.
Proof.
  intros [Hl H]. unfold bto_list. rewrite Hl.
  transitivity (Some (map (fun i => nth i v 0) (seq 0 (length v)))); [|f_equal; apply map_nth_seq].
  apply mapM_some_map.
  intros i Hi%in_seq. rewrite brd_in by lia. rewrite H by lia. apply nth_error_nth'. lia.
Qed.
Lemma is_vec_rd b v i : is_vec b v -> i < length v -> brd b i = Some (nth i v 0).
Proof. intros [Hl H] Hi. rewrite brd_in by lia. rewrite H by lia. apply nth_error_nth'. lia. Qed.

Lemma py_num_ok dim m nC full : 1 <= dim -> py_num dim m nC full = Some (length (idxs dim m nC full)).
Proof.
  intros Hd. destruct dim as [|dim]; [lia|]. unfold py_num.
  destruct (nrec_run m (fun vec n => v <- bto_list vec ;; Some (if py_keep m nC full v then S n else n))
     (fun v n => Some (if py_keep m nC full v then S n else n)) dim (bfill (S dim) 0) 0
     (length (idxs (S dim) m nC full))) as (v' & E).
  - intros b v s _ Hv. rewrite (is_vec_list _ _ Hv). reflexivity.
  - reflexivity.
  - apply (count_fold (py_keep m nC full)).
  - rewrite E. reflexivity.
Qed.

Lemma list_sum_app l l' : list_sum (l ++ l') = list_sum l + list_sum l'.
Proof. apply list_sum_app. Qed.
Lemma firstn_snoc {X} (v : list X) k d : k < length v -> firstn (S k) v = firstn k v ++ [nth k v d].
Proof.
  revert k; induction v as [|x v IH]; intros [|k] H; cbn in *; try lia; [reflexivity|].
  f_equal. apply IH. lia.
Qed.

Lemma cpp_sum_ok dim b v : length v = dim -> is_vec b v -> cpp_sum dim b = Some (list_sum v).
Proof.
  intros Hl Hv. unfold cpp_sum.
  destruct (for_inv (fun k s => s = list_sum (firstn k v)) (fun j sum => v <- brd b j ;; Some (sum + v)) 0 dim 0)
    as (s & E & H); [lia|reflexivity| |].
  - intros k s Hk ->. rewrite (is_vec_rd _ _ _ Hv) by lia. cbn [bind]. eexists; split; [reflexivity|].
    rewrite (firstn_snoc v k 0) by lia. rewrite list_sum_app. cbn. lia.
  - rewrite E, H. rewrite firstn_all2 by lia. reflexivity.
Qed.

Lemma nth_error_concat {X} (rows : list (list X)) n j k : (forall r, In r rows -> length r = n) -> k < n ->
  nth_error (concat rows) (j * n + k) = match nth_error rows j with Some r => nth_error r k | None => None end.
Proof.
  intros H Hk. revert j; induction rows as [|r rows IH]; intros j; cbn [concat].
  - transitivity (@None X); [destruct (j * n + k); reflexivity|destruct j; reflexivity].
  - assert (Hr : length r = n) by (apply H; left; reflexivity).
    destruct j as [|j]; cbn [nth_error].
    + cbn. rewrite nth_error_app1 by lia. reflexivity.
    + rewrite nth_error_app2 by lia. rewrite <- IH by (intros; apply H; right; assumption).
      f_equal. nia.
Qed.
Lemma concat_len {X} (rows : list (list X)) n : (forall r, In r rows -> length r = n) ->
  length (concat rows) = length rows * n.
Proof.
  induction rows as [|r rows IH]; intros H; cbn; [reflexivity|].
  rewrite app_length, IH by (intros; apply H; right; assumption).
  rewrite (H r (or_introl eq_refl)). reflexivity.
Qed.

(** the flat copy of a constraint table *)
Definition flat_ok (nC : list (list Z)) (dim numC : nat) (b : buf Z) : Prop :=
  length nC = dim /\ (forall r, In r nC -> length r = numC) /\ blen b = dim * numC /\
  forall i, bcell b i = nth_error (concat nC) i.

Lemma cpp_flag_ok nC dim numC fb b v : length v = dim -> is_vec b v -> flat_ok nC dim numC fb ->
  cpp_flag dim numC fb b =
  Some (negb (forallb (fun p => existsb (Z.eqb (Z.of_nat (fst p))) (snd p)) (combine v nC))).
Proof.
  intros Hl Hv (Hn & Hr & Hb & Hc). unfold cpp_flag.
  set (p := fun p : nat * list Z => existsb (Z.eqb (Z.of_nat (fst p))) (snd p)).
  destruct (for_inv (fun k s => s = negb (forallb p (firstn k (combine v nC))))
    (fun j flag =>
      v <- brd b j ;;
      flag1 <- for_ 0 numC (fun g (flag1 : bool) =>
               if flag1 then c <- brd fb (j * numC + g) ;; Some (negb (Z.eqb (Z.of_nat v) c))
               else Some false) true ;;
      Some (flag || flag1)) 0 dim false) as (s & E & H).
  - lia.
  - reflexivity.
  - intros k s Hk ->. rewrite (is_vec_rd _ _ _ Hv) by lia. cbn [bind].
    destruct (nth_error nC k) as [row|] eqn:Erow; [|apply nth_error_None in Erow; lia].
    assert (Hrl : length row = numC) by (apply Hr; apply nth_error_In in Erow; exact Erow).
    destruct (for_inv (fun g s => s = negb (existsb (Z.eqb (Z.of_nat (nth k v 0))) (firstn g row)))
      (fun g (flag1 : bool) => if flag1 then c <- brd fb (k * numC + g) ;; Some (negb (Z.eqb (Z.of_nat (nth k v 0)) c))
               else Some false) 0 numC true) as (s & E & H).
    + lia.
    + reflexivity.
    + intros g s Hg ->. rewrite (firstn_snoc row g 0%Z) by lia. rewrite existsb_app.
      destruct (existsb _ (firstn g row)); cbn [negb orb]; [eexists; split; reflexivity|].
      rewrite brd_in by (rewrite Hb; nia). rewrite Hc, (nth_error_concat nC numC) by (assumption || lia).
      rewrite Erow, (nth_error_nth' row 0%Z) by lia. cbn [bind]. eexists; split; [reflexivity|].
      cbn [existsb]. rewrite orb_false_r. reflexivity.
    + rewrite E. cbn [bind]. eexists; split; [reflexivity|].
      rewrite firstn_all2 in H by lia. subst s.
      assert (Hc2 : nth_error (combine v nC) k = Some (nth k v 0, row)).
      { apply nth_error_combine. split; [cbn; apply nth_error_nth'; lia|exact Erow]. }
      assert (Hkl : k < length (combine v nC)) by (apply nth_error_Some; congruence).
      rewrite (firstn_snoc _ k (0, []) Hkl), forallb_app, negb_andb. f_equal.
      rewrite (nth_error_nth _ _ _ Hc2). cbn [forallb]. rewrite andb_true_r. reflexivity.
  - rewrite E, H. rewrite firstn_all2; [reflexivity|]. rewrite combine_length. lia.
Qed.

Lemma cpp_keep_ok nC dim numC fb m full b v : length v = dim -> is_vec b v -> flat_ok nC dim numC fb ->
  cpp_keep dim m numC fb full b = Some (py_keep m nC full v).
Proof.
  intros Hl Hv HC. unfold cpp_keep, py_keep. rewrite (cpp_sum_ok dim b v Hl Hv).
  destruct full; [reflexivity|]. rewrite (cpp_flag_ok nC dim numC fb b v Hl Hv HC). cbn [bind].
  destruct (negb _); reflexivity.
Qed.

Lemma cpp_num_ok nC dim numC fb m full : 1 <= dim -> flat_ok nC dim numC fb ->
  cpp_num dim m numC fb full = Some (length (idxs dim m nC full)).
Proof.
  intros Hd HC. destruct dim as [|dim]; [lia|]. unfold cpp_num.
  destruct (nrec_run m (fun vec n => k <- cpp_keep (S dim) m numC fb full vec ;; Some (if (k : bool) then S n else n))
     (fun v n => Some (if py_keep m nC full v then S n else n)) dim (bnew (S dim)) 0
     (length (idxs (S dim) m nC full))) as (v' & E).
  - intros b v s Hl Hv. rewrite (cpp_keep_ok _ _ _ _ _ _ _ _ Hl Hv HC). reflexivity.
  - reflexivity.
  - apply (count_fold (py_keep m nC full)).
  - rewrite E. reflexivity.
Qed.

(** ** construction *)
Definition nd_z0 (f : fam) : R := match f with FS => (- PI)%R | _ => (- (1))%R end.
Definition nd_zf (f : fam) : R := match f with FS => PI | _ => 1%R end.
Definition nd_ci (f : fam) (x0 xf : list R) (k : nat) : R :=
  ((nd_zf f - nd_z0 f) / (nth k xf 0 - nth k x0 0))%R.

(** what construction establishes *)
Record nb_ok (f : fam) (dim : nat) (x0 xf : list R) (nC : mat Z) (m : nat) (B : nbasis (T:=R)) : Prop := {
  nbo_dim : nb_dim B = dim; nbo_m : nb_m B = m; nbo_nC : nb_nC B = md nC;
  nbo_flat : flat_ok (md nC) dim (nb_numC B) (nb_flat B);
  nbo_x0 : nb_x0 B = x0; nbo_c : nb_c B = map (nd_ci f x0 xf) (seq 0 dim); nbo_z0 : nb_z0 B = nd_z0 f;
  nbo_num : forall full, advertised B full = length (idxs dim m (md nC) full) }.

Lemma nth_error_ext {X} (l l' : list X) : (forall i, nth_error l i = nth_error l' i) -> l = l'.
Proof.
  revert l'; induction l as [|x l IH]; intros [|y l'] H; [reflexivity|specialize (H 0); discriminate|
    specialize (H 0); discriminate|].
  pose proof (H 0) as H0. cbn in H0. injection H0 as <-. f_equal. apply IH. intros i. exact (H (S i)).
Qed.

Lemma nd_c_ok f x0 xf dim : length x0 = dim -> length xf = dim ->
  nd_c ROps (nd_z0 f) (nd_zf f) x0 xf = map (nd_ci f x0 xf) (seq 0 dim).
Proof.
  intros H0 Hf. apply nth_error_ext. intros i. rewrite nth_error_map_seq. unfold nd_c. rewrite nth_error_map.
  destruct (Nat.ltb_spec i dim) as [Hi|Hi].
  - rewrite (proj2 (nth_error_combine x0 xf i (nth i x0 0, nth i xf 0)%R)); [reflexivity|].
    split; apply nth_error_nth'; lia.
  - destruct (nth_error (combine x0 xf) i) eqn:E; [|reflexivity].
    assert (i < length (combine x0 xf)) by (apply nth_error_Some; congruence). rewrite combine_length in *. lia.
Qed.

Lemma mkn_ok be f dim x0 xf nC m : n_args f dim x0 xf nC m ->
  exists B, mkn be f x0 xf nC m = Some B /\ nb_ok f dim x0 xf nC m B.
Proof.
  intros (Hf & Hd & Hm & H0 & Hxf & (Hr & _ & Hl & Hrow)). unfold mkn, nd_init.
  assert (Hdom : nd_dom ROps RFun f = Some (nd_z0 f, nd_zf f)).
  { destruct Hf as [->|[->| ->]]; reflexivity. }
  rewrite Hdom. cbn [bind fst snd].
  assert (Hcl : length (concat (md nC)) = (dim * mc nC)%nat) by (rewrite (concat_len _ _ Hrow), Hl; reflexivity).
  destruct be.
  - unfold py_nd_init. rewrite Hr, H0, Hxf, Nat.eqb_refl. cbn [andb].
    rewrite !py_num_ok by exact Hd. cbn [bind]. eexists; split; [reflexivity|].
    constructor; cbn; try reflexivity.
    + split; [exact Hl|]. split; [exact Hrow|]. split; [exact Hcl|reflexivity].
    + apply nd_c_ok; assumption.
    + intros []; reflexivity.
  - unfold cpp_nd_init. rewrite H0, Hcl, Hxf.
    destruct (Nat.leb_spec (dim * mc nC) (dim * mc nC)); [|lia]. rewrite Nat.leb_refl. cbn [andb].
    assert (HC : flat_ok (md nC) dim (mc nC) (Buf (dim * mc nC) (nth_error (concat (md nC))))).
    { split; [exact Hl|]. split; [exact Hrow|]. split; reflexivity. }
    rewrite !(cpp_num_ok _ _ _ _ m _ Hd HC). cbn [bind]. eexists; split; [reflexivity|].
    constructor; cbn; try reflexivity.
    + exact HC.
    + rewrite firstn_all2 by lia. apply nd_c_ok; assumption.
    + intros []; reflexivity.
Qed.

(** ** the matrix *)
Open Scope R_scope.
(** univariate factor in dimension [k] *)
Definition ndcol (f : fam) (x0 xf : list R) (k : nat) (t : R) (d a : nat) : R :=
  col f a d ((t - nth k x0 0) * nd_ci f x0 xf k + nd_z0 f) * nd_ci f x0 xf k ^ d.
Definition ndterm (f : fam) (x0 xf : list R) (dim : nat) (X : nat -> R) (d v : list nat) : R :=
  prodn dim (fun k => ndcol f x0 xf k (X k) (nth k d 0%nat) (nth k v 0%nat)).
Definition nd_mat (f : fam) (dim : nat) (x0 xf : list R) (nC : mat Z) (m : nat) (x : mat R) (d : list nat)
    (full : bool) : mat R :=
  let idx := idxs dim m (md nC) full in
  Mat (mc x) (length idx)
    (map (fun j => map (ndterm f x0 xf dim (fun k => nth j (nth k (md x) []) 0) d) idx) (seq 0 (mc x))).

Lemma prodn_ext n F G : (forall k, (k < n)%nat -> F k = G k) -> prodn n F = prodn n G.
Proof. induction n as [|n IH]; intros H; cbn; [reflexivity|]. rewrite IH by auto. rewrite H by lia. reflexivity. Qed.

(** filling an output row along the enumeration *)
Lemma fill_fold {T} (p : list nat -> bool) (V : list nat -> T) (wr : list nat -> buf T -> nat -> option (buf T))
  (num : nat) l :
  forall n (out : buf T) G,
  (forall v b n', In v l -> p v = true -> (n' < num)%nat -> blen b = num -> wr v b n' = bwr b n' (V v)) ->
  blen out = num -> (n + length (filter p l) <= num)%nat ->
  (forall i, (i < n)%nat -> bcell out i = Some (G i)) ->
  exists out', foldM (fun v (st : buf T * nat) => let (out, n) := st in
      if p v then out <- wr v out n ;; Some (out, S n) else Some (out, n)) l (out, n) = Some (out', (n + length (filter p l))%nat) /\
    blen out' = num /\ (forall i, (i < n)%nat -> bcell out' i = Some (G i)) /\
    (forall i v, nth_error (filter p l) i = Some v -> bcell out' (n + i)%nat = Some (V v)).
Proof.
  induction l as [|v l IH]; intros n out G Hwr Hl Hn HG; cbn [foldM filter].
  - exists out. cbn [length]. rewrite Nat.add_0_r. split; [reflexivity|]. split; [exact Hl|]. split; [exact HG|].
    intros [|i] w; discriminate.
  - cbn [filter] in Hn. destruct (p v) eqn:E; cbn [bind].
    + cbn [length] in Hn. rewrite (Hwr v out n (or_introl eq_refl) E) by (lia || exact Hl).
      rewrite bwr_in by lia. cbn [bind].
      destruct (IH (S n) (Buf (blen out) (fun j => if (j =? n)%nat then Some (V v) else bcell out j))
         (fun i => if (i =? n)%nat then V v else G i)) as (o' & E' & Hl' & HG' & HV').
      * intros; apply Hwr; auto. right; assumption.
      * exact Hl.
      * lia.
      * intros i Hi; cbn. destruct (Nat.eqb_spec i n); [reflexivity|apply HG; lia].
      * exists o'. rewrite E'. cbn [length]. split; [do 2 f_equal; lia|]. split; [exact Hl'|]. split.
        -- intros i Hi. rewrite HG' by lia. destruct (Nat.eqb_spec i n); [lia|reflexivity].
        -- intros [|i] w Hw; cbn in Hw.
           ++ injection Hw as <-. rewrite Nat.add_0_r, HG' by lia. rewrite Nat.eqb_refl. reflexivity.
           ++ rewrite <- (HV' i w Hw). f_equal. lia.
    + apply IH; auto. intros; apply Hwr; auto. right; assumption.
Qed.

Lemma vecs_nth m dim v k : (k < dim)%nat -> In v (vecs m dim) -> (nth k v 0 < m)%nat.
Proof.
  intros Hk Hv. apply vecs_in in Hv as [Hl Hf]. rewrite Forall_forall in Hf. apply Hf, nth_In. lia.
Qed.

Lemma py_nd_row_ok f dim x0 xf nC m B full Tk (t : nat -> nat -> R) :
  (1 <= dim)%nat -> nb_ok f dim x0 xf nC m B -> length Tk = dim ->
  (forall k a, (k < dim)%nat -> (a < m)%nat -> exists row, nth_error Tk k = Some row /\ nth_error row a = Some (t k a)) ->
  py_nd_row ROps B full Tk =
    Some (map (fun v => prodn dim (fun k => t k (nth k v 0%nat))) (idxs dim m (md nC) full)).
Proof.
  intros Hd HB HTl HT. unfold py_nd_row. rewrite (nbo_dim _ _ _ _ _ _ _ HB).
  destruct dim as [|dim]; [lia|].
  rewrite (nbo_m _ _ _ _ _ _ _ HB), (nbo_nC _ _ _ _ _ _ _ HB).
  pose proof (nbo_num _ _ _ _ _ _ _ HB full) as Hnum. unfold advertised in Hnum. rewrite Hnum.
  set (idx := idxs (S dim) m (md nC) full) in *.
  set (V := fun v => prodn (S dim) (fun k => t k (nth k v 0%nat))).
  destruct (fill_fold (py_keep m (md nC) full) V
    (fun v out n => tt <- py_multT ROps Tk (S dim) v ;; bwr out n tt) (length idx) (vecs m (S dim)) 0
    (bfill (length idx) 0) (fun _ => 0)) as (o' & E' & Hl' & _ & HV').
  - intros v b n' Hv _ _ _.
    assert (Em : py_multT ROps Tk (S dim) v = Some (V v)); [|rewrite Em; reflexivity].
    unfold py_multT.
    destruct (for_inv (fun k s => s = prodn k (fun k => t k (nth k v 0%nat)))
      (fun k tout => row <- nth_error Tk k ;; v <- nth_error v k ;; t <- nth_error row v ;; Some (omul ROps tout t))
      0 (S dim) (o1 ROps)) as (s & E & H); [lia|reflexivity| |rewrite E, H; reflexivity].
    intros k s Hk ->.
    destruct (HT k (nth k v 0%nat)) as (row & Hrow & Hrv); [lia|apply (vecs_nth m (S dim)); [lia|exact Hv]|].
    pose proof (vecs_len _ _ _ Hv) as Hvl.
    rewrite Hrow, (nth_error_nth' v 0%nat) by lia. cbn [bind]. rewrite Hrv. cbn [bind].
    eexists; split; reflexivity.
  - reflexivity.
  - cbn. apply Nat.le_refl.
  - intros i Hi; lia.
  - destruct (nrec_run m (fun vec (st : buf R * nat) =>
             let (out, n) := st in
             v <- bto_list vec ;;
             if py_keep m (md nC) full v then
               t <- py_multT ROps Tk (S dim) v ;;
               out <- bwr out n t ;;
               Some (out, S n)
             else Some (out, n))
      (fun v (st : buf R * nat) => let (out, n) := st in
         if py_keep m (md nC) full v then out <- (tt <- py_multT ROps Tk (S dim) v ;; bwr out n tt) ;; Some (out, S n)
         else Some (out, n)) dim (bfill (S dim) 0%nat) (bfill (length idx) 0, 0%nat)
      (o', (0 + length (filter (py_keep m (md nC) full) (vecs m (S dim))))%nat)) as (v' & E).
    + intros b v [out n] Hl Hv. rewrite (is_vec_list _ _ Hv). cbn [bind]. destruct (py_keep _ _ _ v); [|reflexivity].
      destruct (py_multT ROps Tk (S dim) v); reflexivity.
    + reflexivity.
    + exact E'.
    + change (o0 ROps) with 0. rewrite E. cbn [bind fst snd].
      rewrite (bto_list_holds o' (fun i => V (nth i idx []))).
      * f_equal. rewrite Hl'. apply (map_seq_nth V idx []).
      * intros i Hi. rewrite <- (HV' i (nth i idx [])); [reflexivity|]. apply nth_error_nth'. fold (idxs (S dim) m (md nC) full). fold idx. lia.
Qed.

(** entries of a [dim] by [n] array *)
Lemma shaped_ent {T} (x : mat T) dim n k j d : shaped x dim n -> (k < dim)%nat -> (j < n)%nat ->
  exists row, nth_error (md x) k = Some row /\ length row = n /\ nth_error row j = Some (nth j (nth k (md x) []) d).
Proof.
  intros (_ & _ & Hl & Hr) Hk Hj.
  destruct (nth_error (md x) k) as [row|] eqn:E; [|apply nth_error_None in E; lia].
  exists row. assert (Hrl : length row = n) by (apply Hr; apply nth_error_In in E; exact E).
  split; [reflexivity|]. split; [exact Hrl|]. rewrite (nth_error_nth _ _ [] E). apply nth_error_nth'. lia.
Qed.

Lemma nth_error_nd_c f x0 xf dim k : (k < dim)%nat ->
  nth_error (map (nd_ci f x0 xf) (seq 0 dim)) k = Some (nd_ci f x0 xf k).
Proof. intros Hk. rewrite nth_error_map_seq. apply Nat.ltb_lt in Hk. rewrite Hk. reflexivity. Qed.

Lemma py_nH_ok f dim x0 xf nC m B x d full n : n_args f dim x0 xf nC m -> nb_ok f dim x0 xf nC m B ->
  shaped x dim n -> (dim <= length d)%nat ->
  py_nH ROps RFun f B x d full = Some (nd_mat f dim x0 xf nC m x d full).
Proof.
  intros (Hf & Hd & Hm & H0 & Hxf & HC) HB Hx Hdl. unfold py_nH.
  pose proof Hx as (Hx1 & Hx2 & Hx3 & Hx4).
  rewrite (nbo_dim _ _ _ _ _ _ _ HB), Hx1, Nat.eqb_refl.
  pose proof (nbo_num _ _ _ _ _ _ _ HB full) as Hnum. unfold advertised in Hnum. rewrite Hnum.
  erewrite mapM_some_map; [reflexivity|]. intros j Hj%in_seq.
  assert (Ecol : mapM (fun r => nth_error r j) (md x) = Some (map (fun r => nth j r 0) (md x))).
  { apply mapM_some_map. intros r Hr. apply nth_error_nth'. rewrite Hx4 by exact Hr. lia. }
  rewrite Ecol. cbn [bind].
  set (X := fun k => nth j (nth k (md x) []) 0).
  assert (Ez : py_nd_z ROps B (map (fun r => nth j r 0) (md x)) =
    map (fun k => (X k - nth k x0 0) * nd_ci f x0 xf k + nd_z0 f) (seq 0 dim)).
  { unfold py_nd_z. rewrite (nbo_x0 _ _ _ _ _ _ _ HB), (nbo_c _ _ _ _ _ _ _ HB), (nbo_z0 _ _ _ _ _ _ _ HB).
    apply nth_error_ext. intros i. rewrite nth_error_map_seq, nth_error_map.
    destruct (Nat.ltb_spec i dim) as [Hi|Hi].
    - rewrite (proj2 (nth_error_combine _ _ i (X i, (nth i x0 0, nd_ci f x0 xf i)))); [reflexivity|].
      cbn [fst snd]. split.
      + rewrite nth_error_map, (nth_error_nth' _ []) by lia. reflexivity.
      + apply nth_error_combine. cbn [fst snd]. split; [apply nth_error_nth'; lia|apply nth_error_nd_c, Hi].
    - destruct (nth_error (combine _ _) i) eqn:E; [|reflexivity].
      match type of E with nth_error ?l _ = _ => assert (Hlt : (i < length l)%nat) by (apply nth_error_Some; congruence) end.
      rewrite combine_length, map_length in Hlt. lia. }
  rewrite Ez.
  assert (ET : py_nd_T ROps RFun f B (map (fun k => (X k - nth k x0 0) * nd_ci f x0 xf k + nd_z0 f) (seq 0 dim)) d =
    Some (map (fun k => map (fun a => ndcol f x0 xf k (X k) (nth k d 0%nat) a) (seq 0 m)) (seq 0 dim))).
  { unfold py_nd_T. rewrite (nbo_dim _ _ _ _ _ _ _ HB), (nbo_c _ _ _ _ _ _ _ HB), (nbo_m _ _ _ _ _ _ _ HB).
    apply mapM_some_map. intros k Hk%in_seq.
    rewrite nth_error_map_seq. destruct (Nat.ltb_spec k dim); [|lia]. cbn [bind].
    rewrite (nth_error_nth' d 0%nat) by lia. cbn [bind].
    rewrite nth_error_nd_c by lia. cbn [bind]. rewrite py_hint_row_ok by exact Hm. cbn [bind].
    rewrite map_map. f_equal. apply map_ext. intros a. rewrite opow_R. reflexivity. }
  rewrite ET. cbn [bind].
  erewrite (py_nd_row_ok f dim x0 xf nC m B full _ (fun k a => ndcol f x0 xf k (X k) (nth k d 0%nat) a) Hd HB).
  - reflexivity.
  - rewrite map_length, seq_length. reflexivity.
  - intros k a Hk Ha. eexists. rewrite nth_error_map_seq. destruct (Nat.ltb_spec k dim); [|lia]. split; [reflexivity|].
    rewrite nth_error_map_seq. destruct (Nat.ltb_spec a m); [reflexivity|lia].
Qed.

(** ** C++ *)
(** row-major double loop that fills a block *)
Lemma for_rows {T} n m (V : nat -> nat -> T) (body : nat -> nat -> buf T -> option (buf T)) b :
  blen b = (m * n)%nat ->
  (forall j k b', (j < n)%nat -> (k < m)%nat -> blen b' = (m * n)%nat -> body j k b' = bwr b' (m * j + k)%nat (V j k)) ->
  exists b', for_ 0 n (fun j b => for_ 0 m (body j) b) b = Some b' /\ cols b' n m m V.
Proof.
  intros Hl Hbody.
  destruct (for_inv (fun j b' => blen b' = (m * n)%nat /\
      forall j' k', (j' < j)%nat -> (k' < m)%nat -> bcell b' (m * j' + k')%nat = Some (V j' k'))
     (fun j b => for_ 0 m (body j) b) 0 n b) as (b' & E & Hl' & H').
  - lia.
  - split; [exact Hl|lia].
  - intros j b1 Hj [Hl1 H1].
    destruct (for_inv (fun k b' => blen b' = (m * n)%nat /\
      (forall j' k', (j' < j)%nat -> (k' < m)%nat -> bcell b' (m * j' + k')%nat = Some (V j' k')) /\
      forall k', (k' < k)%nat -> bcell b' (m * j + k')%nat = Some (V j k')) (body j) 0 m b1)
      as (b2 & E2 & Hl2 & H2 & H2').
    + lia.
    + split; [exact Hl1|]. split; [exact H1|lia].
    + intros k b2 Hk (Hl2 & H2 & H2'). rewrite Hbody by (lia || exact Hl2).
      rewrite bwr_in by (rewrite Hl2; nia). eexists; split; [reflexivity|].
      split; [exact Hl2|]. split.
      * intros j' k' Hj' Hk'; cbn. destruct (Nat.eqb_spec (m * j' + k') (m * j + k)) as [He|He].
        { apply idx_inj in He; lia. } apply H2; assumption.
      * intros k' Hk'; cbn. destruct (Nat.eqb_spec (m * j + k') (m * j + k)) as [He|He].
        { replace k' with k by lia. reflexivity. } apply H2'; lia.
    + exists b2. split; [exact E2|]. split; [exact Hl2|]. intros j' k' Hj' Hk'.
      destruct (Nat.eq_dec j' j) as [->|]; [apply H2'|apply H2]; lia.
  - exists b'. split; [exact E|]. split; [exact Hl'|]. exact H'.
Qed.

Lemma cpp_nd_z_ok f dim x0 xf nC m B (xb : buf R) n (X : nat -> nat -> R) :
  n_args f dim x0 xf nC m -> nb_ok f dim x0 xf nC m B ->
  (forall k j, (k < dim)%nat -> (j < n)%nat -> brd xb (k * n + j)%nat = Some (X k j)) ->
  exists z, cpp_nd_z ROps B xb n = Some z /\
    cols z dim n n (fun k j => (X k j - nth k x0 0) * nd_ci f x0 xf k + nd_z0 f).
Proof.
  intros (Hf & Hd & Hm & H0 & Hxf & HC) HB Hx. unfold cpp_nd_z.
  rewrite (nbo_dim _ _ _ _ _ _ _ HB), (nbo_x0 _ _ _ _ _ _ _ HB), (nbo_c _ _ _ _ _ _ _ HB), (nbo_z0 _ _ _ _ _ _ _ HB).
  apply (for_rows dim n (fun k j => (X k j - nth k x0 0) * nd_ci f x0 xf k + nd_z0 f)
    (fun j k z => xv <- brd xb (j * n + k)%nat ;; x0j <- nth_error x0 j ;;
       cj <- nth_error (map (nd_ci f x0 xf) (seq 0 dim)) j ;;
       bwr z (j * n + k)%nat (oadd ROps (omul ROps (osub ROps xv x0j) cj) (nd_z0 f)))).
  - reflexivity.
  - intros j k b Hj Hk _. rewrite Hx by assumption. rewrite (nth_error_nth' x0 0) by lia.
    rewrite nth_error_nd_c by exact Hj. cbn [bind]. rewrite (Nat.mul_comm j n). reflexivity.
Qed.

(** the block of univariate tables *)
Definition tab_ok (Tb : buf R) (dim n m : nat) (t : nat -> nat -> nat -> R) : Prop :=
  forall k h a, (k < dim)%nat -> (h < n)%nat -> (a < m)%nat -> bcell Tb (m * n * k + (m * h + a))%nat = Some (t k h a).

Lemma cpp_nd_T_ok f dim x0 xf nC m B z n (Z : nat -> nat -> R) d :
  n_args f dim x0 xf nC m -> nb_ok f dim x0 xf nC m B -> cols z dim n n Z ->
  exists Tb, cpp_nd_T ROps RFun f B z n d = Some Tb /\ blen Tb = (n * m * dim)%nat /\
    tab_ok Tb dim n m (fun k h a => col f a (nth k d 0%nat) (Z k h) * nd_ci f x0 xf k ^ (nth k d 0%nat)).
Proof.
  intros (Hf & Hd & Hm & H0 & Hxf & HC) HB Hz. unfold cpp_nd_T.
  rewrite (nbo_dim _ _ _ _ _ _ _ HB), (nbo_m _ _ _ _ _ _ _ HB), (nbo_c _ _ _ _ _ _ _ HB).
  set (t := fun k h a => col f a (nth k d 0%nat) (Z k h) * nd_ci f x0 xf k ^ (nth k d 0%nat)).
  match goal with |- context [for_ 0 dim ?b ?s] => 
    destruct (for_inv (fun k (st : buf R * buf R) => blen (fst st) = (m * n)%nat /\ blen (snd st) = (n * m * dim)%nat /\
      forall k' h a, (k' < k)%nat -> (h < n)%nat -> (a < m)%nat ->
        bcell (snd st) (m * n * k' + (m * h + a))%nat = Some (t k' h a)) b 0%nat dim s) as ([dk Tb] & E & _ & HlT & HT) end.
  - lia.
  - cbn. split; [lia|]. split; [reflexivity|lia].
  - intros k [dk Tb] Hk (Hld & HlT & HT). cbn [fst snd] in *.
    unfold bsub at 1. destruct Hz as [Hzl Hz].
    destruct (Nat.leb_spec (k * n + n) (blen z)) as [_|Hbad]; [|rewrite Hzl in Hbad; nia]. cbn [bind].
    rewrite nth_error_nd_c by lia. cbn [bind].
    destruct (cpp_hint_ok f m Hm (nth k d 0%nat) (Buf n (fun i => bcell z (k * n + i)%nat)) (Z k) n dk)
      as (dk' & Ed & Hdk).
    { split; [reflexivity|]. intros j Hj; cbn. rewrite <- (Hz k j) by lia. f_equal. lia. }
    { exact Hld. }
    rewrite Ed. cbn [bind]. change ((if (length d <=? k)%nat then o1 ROps else opow ROps (nd_ci f x0 xf k) (nth k d 0%nat)))
      with (if (length d <=? k)%nat then 1 else opow ROps (nd_ci f x0 xf k) (nth k d 0%nat)).
    assert (Emul : (if (length d <=? k)%nat then 1 else opow ROps (nd_ci f x0 xf k) (nth k d 0%nat)) =
                   nd_ci f x0 xf k ^ (nth k d 0%nat)).
    { destruct (Nat.leb_spec (length d) k) as [Hle|Hle]; [rewrite nth_overflow by exact Hle; reflexivity|].
      apply opow_R. }
    rewrite Emul.
    destruct (for_inv (fun j Tb' => blen Tb' = (n * m * dim)%nat /\
       (forall k' h a, (k' < k)%nat -> (h < n)%nat -> (a < m)%nat ->
          bcell Tb' (m * n * k' + (m * h + a))%nat = Some (t k' h a)) /\
       forall h a, (h < n)%nat -> (a < m)%nat -> (m * h + a < j)%nat ->
          bcell Tb' (m * n * k + (m * h + a))%nat = Some (t k h a))
      (fun j Tb => v <- brd dk' j ;; bwr Tb (j + k * m * n)%nat (omul ROps v (nd_ci f x0 xf k ^ nth k d 0%nat)))
      0 (n * m) Tb) as (Tb' & E & HlT' & HT' & HT'').
    + lia.
    + split; [exact HlT|]. split; [exact HT|lia].
    + intros j Tb' Hj (HlT' & HT' & HT'').
      assert (Hex : exists h a, j = (m * h + a)%nat /\ (a < m)%nat /\ (h < n)%nat).
      { pose proof (Nat.div_mod j m ltac:(lia)) as Hja. pose proof (Nat.mod_upper_bound j m ltac:(lia)) as Ha.
        exists (j / m)%nat, (j mod m)%nat. split; [exact Hja|]. split; [exact Ha|]. nia. }
      destruct Hex as (h & a & -> & Ha & Hh).
      rewrite (cols_rd _ _ _ _ _ _ _ Hdk) by lia. cbn [bind].
      assert (Hb1 : (m * n * k + m * n <= m * n * dim)%nat) by nia.
      assert (Hcm : (k * m * n = m * n * k)%nat) by ring.
      assert (Hcm2 : (n * m * dim = m * n * dim)%nat) by ring.
      rewrite bwr_in by (rewrite HlT'; lia).
      eexists; split; [reflexivity|]. split; [exact HlT'|]. split.
      * intros k' h' a' Hk' Hh' Ha'; cbn.
        assert (Hb2 : (m * n * k' + m * n <= m * n * k)%nat) by nia.
        assert (Hb3 : (m * h' + a' < m * n)%nat) by nia.
        destruct (Nat.eqb_spec (m * n * k' + (m * h' + a')) (m * h + a + k * m * n)); [lia|]. apply HT'; assumption.
      * intros h' a' Hh' Ha' Hlt; cbn.
        destruct (Nat.eqb_spec (m * n * k + (m * h' + a')) (m * h + a + k * m * n)) as [He|He].
        -- assert (He2 : (m * h' + a' = m * h + a)%nat) by lia. apply idx_inj in He2 as [-> ->]; [|lia|lia]. reflexivity.
        -- apply HT''; lia.
    + rewrite E. cbn [bind]. eexists; split; [reflexivity|]. cbn [fst snd].
      split; [apply Hdk|]. split; [exact HlT'|]. intros k' h a Hk' Hh Ha.
      destruct (Nat.eq_dec k' k) as [->|]; [apply HT''; [exact Hh|exact Ha|nia]|apply HT'; lia].
  - rewrite E. cbn [bind snd]. exists Tb. split; [reflexivity|]. split; [exact HlT|exact HT].
Qed.

Lemma cpp_nd_mult_ok f dim x0 xf nC m B n nb Tb (t : nat -> nat -> nat -> R) bv v count out G :
  nb_ok f dim x0 xf nC m B -> blen Tb = (n * m * dim)%nat -> tab_ok Tb dim n m t ->
  is_vec bv v -> In v (vecs m dim) -> (count < nb)%nat -> bmat out n nb (fun j k => Some (G j k)) ->
  (forall j, G j count = 1) ->
  exists out', cpp_nd_mult ROps B n nb Tb bv count out = Some out' /\
    bmat out' n nb (fun j k => Some (if (k =? count)%nat then prodn dim (fun l => t l j (nth l v 0%nat)) else G j k)).
Proof.
  intros HB HTl HT Hv Hin Hc Hout HG. unfold cpp_nd_mult.
  rewrite (nbo_dim _ _ _ _ _ _ _ HB), (nbo_m _ _ _ _ _ _ _ HB).
  pose proof (vecs_len _ _ _ Hin) as Hvl.
  set (P := fun j l => prodn l (fun l => t l j (nth l v 0%nat))).
  destruct (for_inv (fun h o => bmat o n nb (fun j k => Some (if (k =? count)%nat && (j <? h)%nat then P j dim else G j k)))
    (fun h out => for_ 0 dim (fun l out =>
    v <- brd bv l ;;
    t <- brd Tb (m * n * l + v + h * m)%nat ;;
    o <- brd out (h * nb + count)%nat ;;
    bwr out (h * nb + count)%nat (omul ROps o t)) out) 0%nat n out) as (o' & E & Ho').
  - lia.
  - eapply bmat_ext; [exact Hout|]. intros j k _ _; cbv beta. rewrite andb_false_r. reflexivity.
  - intros h o Hh Ho.
    destruct (for_inv (fun l o => bmat o n nb (fun j k => Some
       (if (k =? count)%nat && (j <? h)%nat then P j dim else if (k =? count)%nat && (j =? h)%nat then P h l else G j k)))
     (fun l out =>
    v <- brd bv l ;;
    t <- brd Tb (m * n * l + v + h * m)%nat ;;
    o <- brd out (h * nb + count)%nat ;;
    bwr out (h * nb + count)%nat (omul ROps o t)) 0%nat dim o) as (o2 & E2 & Ho2).
    + lia.
    + eapply bmat_ext; [exact Ho|]. intros j k _ _; cbv beta.
      destruct (Nat.eqb_spec k count) as [->|]; cbn [andb]; [|reflexivity].
      destruct (Nat.ltb_spec j h); [reflexivity|]. destruct (Nat.eqb_spec j h) as [->|]; [|reflexivity].
      rewrite HG. reflexivity.
    + intros l o2 Hl Ho2. rewrite (is_vec_rd _ _ _ Hv) by lia. cbn [bind].
      pose proof (vecs_nth m dim v l ltac:(lia) Hin) as Ha.
      assert (Hcell : brd Tb (m * n * l + nth l v 0 + h * m)%nat = Some (t l h (nth l v 0%nat))).
      { assert (Hb1 : (m * n * l + m * n <= m * n * dim)%nat) by nia.
        assert (Hb3 : (m * h + nth l v 0 < m * n)%nat) by nia.
        assert (Hcm2 : (n * m * dim = m * n * dim)%nat) by ring.
        rewrite brd_in by lia. rewrite <- (HT l h (nth l v 0%nat)) by lia. f_equal. lia. }
      rewrite Hcell. cbn [bind].
      rewrite (Nat.mul_comm h nb). rewrite (bmat_rd _ _ _ _ h count Ho2) by lia. cbn [bind].
      rewrite Nat.eqb_refl, Nat.ltb_irrefl, Nat.eqb_refl. cbn [andb].
      destruct (bmat_wr _ _ _ _ h count (omul ROps (P h l) (t l h (nth l v 0%nat))) Ho2) as (o3 & E3 & Ho3); [lia|lia|].
      exists o3. split; [exact E3|]. eapply bmat_ext; [exact Ho3|]. intros j k Hj Hk; cbv beta.
      destruct (Nat.eqb_spec j h) as [->|]; cbn [andb].
      * rewrite Nat.ltb_irrefl. destruct (Nat.eqb_spec k count); cbn [andb]; reflexivity.
      * rewrite !andb_false_r. reflexivity.
    + exists o2. split; [exact E2|]. eapply bmat_ext; [exact Ho2|]. intros j k Hj Hk; cbv beta.
      destruct (Nat.eqb_spec k count) as [->|]; cbn [andb]; [|reflexivity].
      destruct (Nat.ltb_spec j h), (Nat.ltb_spec j (S h)), (Nat.eqb_spec j h); try lia; subst; reflexivity.
  - exists o'. split; [exact E|]. eapply bmat_ext; [exact Ho'|]. intros j k Hj Hk; cbv beta.
    destruct (Nat.eqb_spec k count) as [->|]; cbn [andb]; [|reflexivity].
    destruct (Nat.ltb_spec j n); [reflexivity|lia].
Qed.

Lemma cpp_nHint_ok f dim x0 xf nC m B (xb : buf R) n (X : nat -> nat -> R) d full F :
  n_args f dim x0 xf nC m -> nb_ok f dim x0 xf nC m B ->
  (forall k j, (k < dim)%nat -> (j < n)%nat -> brd xb (k * n + j)%nat = Some (X k j)) ->
  let idx := idxs dim m (md nC) full in
  blen F = (length idx * n)%nat ->
  exists F', cpp_nHint ROps RFun f B xb n d (length idx) F full = Some F' /\
    cols F' n (length idx) (length idx) (fun j i => ndterm f x0 xf dim (fun k => X k j) d (nth i idx [])).
Proof.
  intros Hargs HB Hx idx HF. pose proof Hargs as (Hf & Hd & Hm & _). unfold cpp_nHint.
  rewrite (nbo_dim _ _ _ _ _ _ _ HB). destruct dim as [|dim]; [lia|].
  destruct (cpp_nd_z_ok _ _ _ _ _ _ _ xb n X Hargs HB Hx) as (z & Ez & Hz). rewrite Ez. cbn [bind].
  destruct (cpp_nd_T_ok _ _ _ _ _ _ _ z n _ d Hargs HB Hz) as (Tb & ET & HlT & HT). rewrite ET. cbn [bind].
  set (t := fun k h a => ndcol f x0 xf k (X k h) (nth k d 0%nat) a).
  change (tab_ok Tb (S dim) n m t) in HT.
  set (nb := length idx) in *.
  destruct (for_inv (fun k b' => blen b' = (nb * n)%nat /\ forall i, (i < k)%nat -> bcell b' i = Some 1)
     (fun k F => bwr F k (o1 ROps)) 0 (n * nb) F) as (F1 & E1 & Hl1 & HF1).
  { lia. } { split; [exact HF|lia]. }
  { intros k b' Hk [Hl' H']. rewrite bwr_in by (rewrite Hl'; lia).
    eexists; split; [reflexivity|]. split; [exact Hl'|]. intros i Hi; cbn.
    destruct (Nat.eqb_spec i k); [reflexivity|apply H'; lia]. }
  rewrite E1. cbn [bind].
  rewrite (nbo_m _ _ _ _ _ _ _ HB).
  assert (Hinit : bmat F1 n nb (fun j k => Some 1)).
  { split; [exact Hl1|]. intros j k Hj Hk. apply HF1. nia. }
  pose proof (nbo_flat _ _ _ _ _ _ _ HB) as Hflat.
  set (p := py_keep m (md nC) full) in *.
  set (V := fun j v => prodn (S dim) (fun l => t l j (nth l v 0%nat))).
  (* any leaf that agrees on the vectors met *)
  set (act := fun v (st : buf R * nat) => let (out, count) := st in
     if p v then out <- cpp_nd_mult ROps B n nb Tb (bof v) count out ;; Some (out, S count) else Some (out, count)).
  assert (Hfold : forall l c o, (forall v, In v l -> In v (vecs m (S dim))) ->
    (c + length (filter p l) <= nb)%nat ->
    forall G, (forall j k, (c <= k)%nat -> G j k = 1) -> bmat o n nb (fun j k => Some (G j k)) ->
    exists o', foldM act l (o, c) = Some (o', (c + length (filter p l))%nat) /\
      bmat o' n nb (fun j k => Some (if (k <? c)%nat then G j k else
         match nth_error (filter p l) (k - c) with Some v => V j v | None => 1 end))).
  { induction l as [|v l IH]; intros c o Hin Hc G HG Ho; cbn [foldM filter].
    - exists o. cbn [length]. rewrite Nat.add_0_r. split; [reflexivity|].
      eapply bmat_ext; [exact Ho|]. intros j k _ _; cbv beta.
      destruct (Nat.ltb_spec k c); [reflexivity|]. rewrite HG by lia. destruct (k - c)%nat; reflexivity.
    - cbn [filter] in Hc.
      assert (Eact : act v (o, c) = if p v then out <- cpp_nd_mult ROps B n nb Tb (bof v) c o ;; Some (out, S c)
                                    else Some (o, c)) by reflexivity.
      rewrite Eact. clear Eact. destruct (p v) eqn:Ep; cbn [bind].
      + cbn [length] in Hc.
        destruct (cpp_nd_mult_ok f (S dim) x0 xf nC m B n nb Tb t (bof v) v c o G HB HlT HT) as (o1 & Eo & Ho1).
        * split; reflexivity.
        * apply Hin; left; reflexivity.
        * lia.
        * exact Ho.
        * intros j. apply HG; lia.
        * rewrite Eo. cbn [bind].
          destruct (IH (S c) o1 (fun v H => Hin v (or_intror H)) ltac:(lia)
             (fun j k => if (k =? c)%nat then V j v else G j k)) as (o2 & E2 & Ho2).
          -- intros j k Hk. destruct (Nat.eqb_spec k c); [lia|apply HG; lia].
          -- exact Ho1.
          -- exists o2. rewrite E2. cbn [length]. split; [do 2 f_equal; lia|].
             eapply bmat_ext; [exact Ho2|]. intros j k _ Hk; cbv beta. f_equal.
             destruct (Nat.ltb_spec k (S c)), (Nat.ltb_spec k c), (Nat.eqb_spec k c); try lia; try reflexivity.
             ++ subst. rewrite Nat.sub_diag. reflexivity.
             ++ replace (k - c)%nat with (S (k - S c)) by lia. reflexivity.
      + apply IH; auto. intros w Hw; apply Hin; right; exact Hw. }
  destruct (Hfold (vecs m (S dim)) 0%nat F1 (fun v H => H)) with (G := fun (_ _ : nat) => 1) as (o' & Ef & Ho').
  { cbn. unfold nb, idx, idxs. fold p. lia. } { reflexivity. } { exact Hinit. }
  destruct (nrec_run m (fun vec (st : buf R * nat) =>
             let (out, count) := st in
             k <- cpp_keep (S dim) m (nb_numC B) (nb_flat B) full vec ;;
             if (k : bool) then
               out <- cpp_nd_mult ROps B n nb Tb vec count out ;;
               Some (out, S count)
             else Some (out, count)) act dim (bnew (S dim)) (F1, 0%nat)
     (o', (0 + length (filter p (vecs m (S dim))))%nat)) as (v' & E).
  - intros b v [out c] Hl Hv. rewrite (cpp_keep_ok _ _ _ _ _ _ _ _ Hl Hv Hflat). cbn [bind]. unfold act. fold p.
    destruct (p v); [|reflexivity].
    assert (Em : cpp_nd_mult ROps B n nb Tb b c out = cpp_nd_mult ROps B n nb Tb (bof v) c out); [|rewrite Em; reflexivity].
    unfold cpp_nd_mult. rewrite (nbo_dim _ _ _ _ _ _ _ HB).
    assert (Hrd : forall l, brd b l = brd (bof v) l).
    { intros l. unfold brd. destruct Hv as [Hbl Hbc]. cbn [bof blen bcell]. rewrite Hbl.
      destruct (Nat.ltb_spec l (length v)); [apply Hbc; assumption|reflexivity]. }
    apply for_ext. intros h o3. apply for_ext. intros l o2. rewrite Hrd. reflexivity.
  - reflexivity.
  - exact Ef.
  - rewrite E. cbn [bind fst snd]. exists o'. split; [reflexivity|]. destruct Ho' as [Hol Hoc].
    split; [exact Hol|]. intros j i Hj Hi. rewrite Hoc by assumption. cbn [Nat.ltb Nat.leb]. rewrite Nat.sub_0_r.
    change (filter p (vecs m (S dim))) with idx. rewrite (nth_error_nth' idx [] Hi). reflexivity.
Qed.

Lemma shaped_flat (x : mat R) dim n k j : shaped x dim n -> (k < dim)%nat -> (j < n)%nat ->
  brd (bof (concat (md x))) (k * n + j)%nat = Some (nth j (nth k (md x) []) 0).
Proof.
  intros Hx Hk Hj. destruct (shaped_ent x dim n k j 0 Hx Hk Hj) as (row & Er & Hl & He).
  destruct Hx as (_ & _ & Hxl & Hxr).
  rewrite brd_in; cbn [bof blen bcell].
  - rewrite (nth_error_concat _ n) by assumption. rewrite Er. exact He.
  - rewrite (concat_len _ n Hxr). nia.
Qed.

Lemma cpp_nH_ok f dim x0 xf nC m B x d full n : n_args f dim x0 xf nC m -> nb_ok f dim x0 xf nC m B ->
  shaped x dim n -> cpp_nH ROps RFun f B x d full = Some (nd_mat f dim x0 xf nC m x d full).
Proof.
  intros Hargs HB Hx. unfold cpp_nH.
  pose proof (nbo_num _ _ _ _ _ _ _ HB full) as Hnum. unfold advertised in Hnum. rewrite Hnum.
  pose proof Hx as (_ & Hn & _). rewrite Hn.
  set (idx := idxs dim m (md nC) full).
  destruct (cpp_nHint_ok f dim x0 xf nC m B (bof (concat (md x))) n (fun k j => nth j (nth k (md x) []) 0) d full
     (bnew (length idx * n)) Hargs HB) as (F & EF & HF).
  - intros k j Hk Hj. apply (shaped_flat x dim n); assumption.
  - reflexivity.
  - fold idx in EF, HF. rewrite EF. cbn [bind].
    rewrite (buf_matrix_bmat F n _ _ (cols_bmat _ _ _ _ HF)). cbn [bind].
    unfold nd_mat. fold idx. rewrite Hn. do 2 f_equal. apply map_ext. intros j.
    apply (map_seq_nth (ndterm f x0 xf dim (fun k => nth j (nth k (md x) []) 0) d) idx []).
Qed.

Lemma Hn_ok be f dim x0 xf nC m B x d full n : n_args f dim x0 xf nC m -> nb_ok f dim x0 xf nC m B ->
  shaped x dim n -> orders_ok be dim d -> Hn be f B x d full = Some (nd_mat f dim x0 xf nC m x d full).
Proof.
  intros Hargs HB Hx Ho. unfold Hn, nd_H. destruct be.
  - destruct Ho as [|Ho]; [discriminate|]. apply (py_nH_ok _ _ _ _ _ _ _ _ _ _ n); assumption.
  - apply (cpp_nH_ok _ _ _ _ _ _ _ _ _ _ n); assumption.
Qed.
