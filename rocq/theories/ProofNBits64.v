(** n-dimensional families in binary64: instances of ProofNBits.v. *)
From Coq Require Import ZArith Reals Lia Lra List Arith Bool.
From Flocq Require Import Core BinarySingleNaN.
From Verif Require Import Base ProofBase Numbers64 ModelBFPy ModelBFCpp ProofTab SpecBasis ModelND SpecND ProofND SpecBits
  ProofBits ProofBits64 SpecNBits ProofNBits ProofH ProofH ProofBFPy.
Import ListNotations.

Lemma dom64 {T} (A : Ops T) E f : bounded f -> exists z0 zf, nd_dom A E f = Some (z0, zf).
Proof. intros [-> | [-> | ->]]; eexists; eexists; reflexivity. Qed.

Lemma ninit {T} (A : Ops T) (E : Fun T) be f dim x0 xf nC m : args_n f dim x0 xf nC m ->
  exists z0 zf B, nd_dom A E f = Some (z0, zf) /\ nd_init A E be f x0 xf nC m = Some B /\
    gnb dim m (md nC) x0 (nd_c A z0 zf x0 xf) z0 B.
Proof.
  intros (Hf & Hd & Hm & H0 & Hxf & HC). destruct (dom64 A E f Hf) as (z0 & zf & Hdom).
  destruct (ginit A E be f dim x0 xf nC m z0 zf Hdom Hd H0 Hxf HC) as (B & HB & Hg).
  exists z0, zf, B. repeat split; assumption || apply Hg.
Qed.

Lemma nagree {T} (A : Ops T) (E : Fun T) f dim x0 xf nC m n x d full : args_n f dim x0 xf nC m ->
  shaped x dim n -> (dim <= length d)%nat -> (forall k, (k < dim)%nat -> small_ints A (nth k d 0%nat)) ->
  exists Bp Bc M, nd_init A E Py f x0 xf nC m = Some Bp /\ nd_init A E Cpp f x0 xf nC m = Some Bc /\
    numbers Bp full = numbers Bc full /\ mc M = numbers Bc full /\
    nd_H A E Py f Bp x d full = Some M /\ nd_H A E Cpp f Bc x d full = Some M.
Proof.
  intros Ha Hx Hd Hs.
  destruct (ninit A E Py _ _ _ _ _ _ Ha) as (z0 & zf & Bp & Hdom & Ep & Hp).
  destruct (ninit A E Cpp _ _ _ _ _ _ Ha) as (z0' & zf' & Bc & Hdom' & Ec & Hc).
  rewrite Hdom in Hdom'. injection Hdom' as <- <-. destruct Ha as (Hf & Hd1 & Hm & _).
  exists Bp, Bc. eexists. split; [exact Ep|]. split; [exact Ec|].
  split; [unfold numbers; rewrite (g_num _ _ _ _ _ _ _ Hp full), (g_num _ _ _ _ _ _ _ Hc full); reflexivity|].
  split; [|split].
  2: { apply (gpy_nH A E f dim m (md nC) x0 _ z0 Bp Hp Hd1 Hm x d full n Hx Hd Hs). }
  - unfold gndmat. cbn [mc]. unfold numbers. rewrite (g_num _ _ _ _ _ _ _ Hc full). reflexivity.
  - apply (gcpp_nH A E f dim m (md nC) x0 _ z0 Bc Hc Hd1 Hm x d full n Hx).
Qed.

Lemma nd_c_nth {T} (A : Ops T) z0 zf x0 xf k : (k < length x0)%nat -> length x0 = length xf ->
  nth k (nd_c A z0 zf x0 xf) (o0 A) = odiv A (osub A zf z0) (osub A (nth k xf (o0 A)) (nth k x0 (o0 A))).
Proof.
  intros Hk Hl. unfold nd_c.
  rewrite (nth_indep _ (o0 A) ((fun p => odiv A (osub A zf z0) (osub A (snd p) (fst p))) (o0 A, o0 A)))
    by (rewrite map_length, combine_length; lia).
  rewrite (map_nth (fun p => odiv A (osub A zf z0) (osub A (snd p) (fst p)))), combine_nth by exact Hl. reflexivity.
Qed.

Lemma uni64_col be E f x0 xf m x d a z0 zf : nd_dom F64 E f = Some (z0, zf) ->
  (1 <= m)%nat -> (a < m)%nat -> (Z.of_nat d < 2 ^ 51)%Z ->
  let c := odiv F64 (osub F64 zf z0) (osub F64 xf x0) in
  uni64 be E f x0 xf m x d a
    (omul F64 (gcol F64 E f a d (oadd F64 (omul F64 (osub F64 x x0) c) z0)) (opow F64 c d)).
Proof.
  intros Hdom Hm Ha Hd c. eexists. split; [apply H64_mat; [exact Hm|apply valid_nil|exact Hd]|].
  rewrite gmat_ent. cbn [nth_error]. rewrite nth_error_seq. destruct (Nat.ltb_spec a m); [|lia].
  destruct f; cbn in Hdom; try discriminate; injection Hdom as <- <-; reflexivity.
Qed.

Lemma nH64 be E f dim x0 xf nC m z0 B x d full n : args_n f dim x0 xf nC m ->
  (exists zf, nd_dom F64 E f = Some (z0, zf) /\ gnb dim m (md nC) x0 (nd_c F64 z0 zf x0 xf) z0 B) ->
  shaped x dim n -> orders_ok be dim d -> orders64 dim d ->
  exists c, (forall k, (k < dim)%nat -> exists zf, nd_dom F64 E f = Some (z0, zf) /\
     nth k c (o0 F64) = odiv F64 (osub F64 zf z0) (osub F64 (nth k xf (o0 F64)) (nth k x0 (o0 F64)))) /\
  nd_H F64 E be f B x d full = Some (gndmat F64 E f dim m (md nC) x0 c z0 x d full).
Proof.
  intros (Hf & Hd1 & Hm & H0 & Hxf & HC) (zf & Hdom & Hg) Hx Hd Ho.
  exists (nd_c F64 z0 zf x0 xf). split.
  - intros k Hk. exists zf. split; [exact Hdom|]. apply nd_c_nth; lia.
  - destruct be; cbn [nd_H].
    + destruct Hd as [Hd|Hd]; [discriminate|]. eapply gpy_nH; try eassumption.
      intros k Hk. apply small_ints64, Ho, Hk.
    + eapply gcpp_nH; eassumption.
Qed.

Lemma gndmat_ent {T} (A : Ops T) E f dim m nC x0 c z0 x d full n j i v : shaped x dim n -> (j < n)%nat ->
  nth_error (idxs dim m nC full) i = Some v ->
  ment (gndmat A E f dim m nC x0 c z0 x d full) j i =
    Some (gndterm A E f dim x0 c z0 (fun k => nth j (nth k (md x) []) (o0 A)) d v).
Proof.
  intros (_ & Hn & _) Hj Hi. unfold ment, gndmat. cbn [md]. rewrite nth_error_map_seq, Hn.
  destruct (Nat.ltb_spec j n); [|lia]. rewrite nth_error_map, Hi. reflexivity.
Qed.

Lemma gndmat_shaped {T} (A : Ops T) E f dim m nC x0 c z0 x d full n : shaped x dim n ->
  shaped (gndmat A E f dim m nC x0 c z0 x d full) n (length (idxs dim m nC full)).
Proof.
  intros (_ & Hn & _). unfold gndmat. rewrite Hn. repeat split; cbn [mr mc md].
  - rewrite map_length, seq_length. reflexivity.
  - intros r Hr. apply in_map_iff in Hr as (j & <- & _). apply map_length.
Qed.

Lemma adm_lt dim m nC full v k : (1 <= m)%nat -> admissible dim m nC full v -> (nth k v 0 < m)%nat.
Proof.
  intros Hm (Hl & Hs & _). destruct (Nat.lt_ge_cases k (length v)) as [Hk|Hk].
  - assert (nth k v 0 <= list_sum v)%nat; [|lia].
    clear -Hk. revert k Hk. induction v as [|a v IH]; intros k Hk; [cbn in Hk; lia|].
    destruct k; cbn [nth]; change (list_sum (a :: v)) with (a + list_sum v)%nat; [lia|].
    specialize (IH k ltac:(cbn in Hk; lia)). lia.
  - rewrite nth_overflow by exact Hk. lia.
Qed.

Lemma columns64 be E f dim x0 xf nC m full : args_n f dim x0 xf nC m ->
  exists B idx, mkn64 be E f x0 xf nC m = Some B /\
    NoDup idx /\ (forall v, In v idx <-> admissible dim m nC full v) /\ numbers B full = length idx /\
    forall n x d, shaped x dim n -> orders_ok be dim d -> orders64 dim d ->
    exists M, Hn64 be E f B x d full = Some M /\ shaped M n (length idx) /\
    forall i v j be', nth_error idx i = Some v -> (j < n)%nat ->
    exists F : nat -> f64,
      (forall k, (k < dim)%nat -> exists xk, ment x k j = Some xk /\
         uni64 be' E f (nth k x0 (f64_int 0)) (nth k xf (f64_int 0)) m xk (nth k d 0%nat) (nth k v 0%nat) (F k)) /\
      ment M j i = Some (rprod dim F).
Proof.
  intros Ha. destruct (ninit F64 E be _ _ _ _ _ _ Ha) as (z0 & zf & B & Hdom & EB & Hg).
  pose proof Ha as (Hf & Hd1 & Hm & H0 & Hxf & HC).
  exists B, (idxs dim m (md nC) full). split; [exact EB|].
  split; [apply idxs_nodup|]. split; [intros v; apply idxs_in; assumption|].
  split; [unfold numbers; apply (g_num _ _ _ _ _ _ _ Hg full)|].
  intros n x d Hx Hd Ho.
  destruct (nH64 be E f dim x0 xf nC m z0 B x d full n Ha) as (c & Hc & EH); try assumption.
  { exists zf. split; assumption. }
  eexists. split; [exact EH|]. split; [apply gndmat_shaped, Hx|].
  intros i v j be' Hi Hj.
  exists (fun k => gndcol F64 E f x0 c z0 k (nth j (nth k (md x) []) (o0 F64)) (nth k d 0%nat) (nth k v 0%nat)).
  split.
  - intros k Hk. exists (nth j (nth k (md x) []) (o0 F64)). split.
    + destruct (shaped_ent x dim n k j (o0 F64) Hx Hk Hj) as (row & Er & Hl & He).
      unfold ment. rewrite Er. exact He.
    + destruct (Hc k Hk) as (zf' & Hdom' & Ec). unfold gndcol, gz. rewrite Ec.
      apply (uni64_col be' E f _ _ m _ _ _ z0 zf' Hdom' Hm); [|apply Ho, Hk].
      apply (adm_lt dim m nC full); [exact Hm|]. apply idxs_in; [exact Hm|exact HC|].
      apply nth_error_In with i, Hi.
  - rewrite (gndmat_ent F64 E f dim m (md nC) x0 c z0 x d full n j i v Hx Hj Hi). reflexivity.
Qed.

(** *** at the corner x0 *)
Lemma gcol_gt f E a z : f = CP \/ f = LeP -> gcol F64 E f a 0 z = gt F64 f z 0 a.
Proof. intros [-> | ->]; reflexivity. Qed.

Lemma isint_val x p q : isint x p -> p = q -> isint x q. Proof. intros H <-. exact H. Qed.

Lemma sgn_add a b : sgn (a + b) = (sgn a * sgn b)%Z.
Proof. unfold sgn. rewrite Nat.even_add. destruct (Nat.even a), (Nat.even b); reflexivity. Qed.

Lemma rprod_signs F (g : nat -> nat) n : (forall k, (k < n)%nat -> isint (F k) (sgn (g k))) ->
  isint (gprod F64 n F) (sgn (list_sum (map g (seq 0 n)))).
Proof.
  induction n as [|n IH]; intros H; [exact isint_one|].
  cbn [gprod]. rewrite seq_S, map_app, list_sum_app. cbn [map list_sum fold_right Nat.add]. rewrite ?Nat.add_0_r, sgn_add.
  apply isint_mul; [apply IH; intros; apply H; lia|apply H; lia|].
  rewrite Z.abs_mul, !sgn_abs. reflexivity.
Qed.

Lemma sum_nth (v : list nat) : list_sum (map (fun k => nth k v 0%nat) (seq 0 (length v))) = list_sum v.
Proof. f_equal. apply nth_error_ext. intros i. rewrite nth_error_map_seq.
  destruct (Nat.ltb_spec i (length v)); [symmetry; apply nth_error_nth', H|]. symmetry. apply nth_error_None, H.
Qed.

Lemma sgn_pow k : IZR (sgn k) = ((-1) ^ k)%R.
Proof. induction k as [|k IH]; [reflexivity|]. rewrite sgn_S, opp_IZR, IH. cbn [pow]. ring. Qed.

Lemma corner64 be E f dim x0 xf nC m full : f = CP \/ f = LeP -> args_n f dim x0 xf nC m ->
  (Z.of_nat m <= 2 ^ 51)%Z ->
  (forall k, (k < dim)%nat -> usable_domain (nth k x0 (f64_int 0)) (nth k xf (f64_int 0))) ->
  exists B idx, mkn64 be E f x0 xf nC m = Some B /\
    NoDup idx /\ (forall v, In v idx <-> admissible dim m nC full v) /\ numbers B full = length idx /\
    exists M, Hn64 be E f B (Mat dim 1 (map (fun t => [t]) x0)) (repeat 0%nat dim) full = Some M /\
    shaped M 1 (length idx) /\
    forall i v, nth_error idx i = Some v -> entry64 M 0 i = Some ((-1) ^ list_sum v)%R.
Proof.
  intros Hcl Ha Hmb Hu. destruct (ninit F64 E be _ _ _ _ _ _ Ha) as (z0 & zf & B & Hdom & EB & Hg).
  pose proof Ha as (Hf & Hd1 & Hm & H0 & Hxf & HC).
  exists B, (idxs dim m (md nC) full). split; [exact EB|].
  split; [apply idxs_nodup|]. split; [intros v; apply idxs_in; assumption|].
  split; [unfold numbers; apply (g_num _ _ _ _ _ _ _ Hg full)|].
  set (x := Mat dim 1 (map (fun t => [t]) x0)).
  assert (Hx : shaped x dim 1).
  { repeat split; cbn; [rewrite map_length; exact H0|]. intros r Hr. apply in_map_iff in Hr as (t & <- & _). reflexivity. }
  assert (Hn0 : forall k, nth k (repeat 0%nat dim) 0%nat = 0%nat).
  { intros k. apply nth_repeat. }
  destruct (nH64 be E f dim x0 xf nC m z0 B x (repeat 0%nat dim) full 1 Ha) as (c & Hc & EH); try assumption.
  { exists zf. split; assumption. } { right. rewrite repeat_length. lia. }
  { intros k Hk. rewrite Hn0. reflexivity. }
  eexists. split; [exact EH|]. split; [apply gndmat_shaped, Hx|]. intros i v Hi.
  pose proof (gndmat_ent F64 E f dim m (md nC) x0 c z0 x (repeat 0%nat dim) full 1 0 i v Hx Nat.lt_0_1 Hi) as Ee.
  assert (Hadm : admissible dim m nC full v).
  { apply idxs_in; [exact Hm|exact HC|]. apply nth_error_In with i, Hi. }
  assert (Hint : isint (gndterm F64 E f dim x0 c z0 (fun k => nth 0 (nth k (md x) []) (o0 F64)) (repeat 0%nat dim) v)
                   (sgn (list_sum v))).
  { destruct Hadm as (Hvl & _). rewrite <- (sum_nth v), Hvl. unfold gndterm. apply rprod_signs. intros k Hk.
    unfold gndcol. rewrite Hn0, gcol_gt by exact Hcl. cbn [opow].
    assert (Ex : nth 0 (nth k (md x) []) (o0 F64) = nth k x0 (o0 F64)).
    { cbn [x md]. rewrite (nth_indep _ [] ((fun t => [t]) (o0 F64))) by (rewrite map_length; lia).
      rewrite (map_nth (fun t => [t])). reflexivity. }
    rewrite Ex. destruct (Hc k Hk) as (zf' & Hdom' & Ec).
    assert (Ez : gz F64 x0 c z0 k (nth k x0 (o0 F64)) = zof (nth k x0 (o0 F64)) (nth k xf (o0 F64)) (nth k x0 (o0 F64))).
    { unfold gz. rewrite Ec. destruct Hcl as [-> | ->]; cbn in Hdom'; injection Hdom' as <- <-; reflexivity. }
    rewrite Ez.
    assert (Hka : (nth k v 0 < m)%nat).
    { apply (adm_lt dim m nC full); [exact Hm|]. apply idxs_in; [exact Hm|exact HC|]. apply nth_error_In with i, Hi. }
    apply isint_val with (sgn (nth k v 0%nat) * 1)%Z; [|ring].
    apply isint_mul; [|exact isint_one|rewrite Z.mul_1_r, sgn_abs; reflexivity].
    apply left_col; [exact Hcl|apply zof_left, Hu, Hk|lia]. }
  destruct Hint as [Fi Vi]. rewrite (entry64_ment _ _ _ _ Ee Fi), Vi, sgn_pow. reflexivity.
Qed.

Lemma pointwise64 be E f dim x0 xf nC m full n x d j : args_n f dim x0 xf nC m ->
  shaped x dim n -> orders_ok be dim d -> orders64 dim d -> (j < n)%nat ->
  exists B M M1 row, mkn64 be E f x0 xf nC m = Some B /\ Hn64 be E f B x d full = Some M /\
    Hn64 be E f B (Mat dim 1 (map (fun r => [nth j r (f64_int 0)]) (md x))) d full = Some M1 /\
    nth_error (md M) j = Some row /\ md M1 = [row].
Proof.
  intros Ha Hx Hd Ho Hj. destruct (ninit F64 E be _ _ _ _ _ _ Ha) as (z0 & zf & B & Hdom & EB & Hg).
  pose proof Ha as (Hf & Hd1 & Hm & H0 & Hxf & HC).
  set (x1 := Mat dim 1 (map (fun r => [nth j r (f64_int 0)]) (md x))).
  pose proof Hx as (_ & Hn & Hxl & _).
  assert (Hx1 : shaped x1 dim 1).
  { repeat split; cbn; [rewrite map_length; exact Hxl|]. intros r Hr. apply in_map_iff in Hr as (t & <- & _). reflexivity. }
  assert (HH : forall y p, shaped y dim p -> Hn64 be E f B y d full =
    Some (gndmat F64 E f dim m (md nC) x0 (nd_c F64 z0 zf x0 xf) z0 y d full)).
  { intros y p Hy. unfold Hn64. destruct be; cbn [nd_H].
    - destruct Hd as [Hd|Hd]; [discriminate|]. eapply gpy_nH; try eassumption. intros k Hk. apply small_ints64, Ho, Hk.
    - eapply gcpp_nH; eassumption. }
  exists B. do 3 eexists. split; [exact EB|]. split; [apply (HH x n Hx)|]. split; [apply (HH x1 1%nat Hx1)|].
  unfold gndmat. cbn [md]. rewrite nth_error_map_seq, Hn. destruct (Nat.ltb_spec j n); [|lia].
  split; [reflexivity|]. cbn [x1 mc seq map]. f_equal. apply map_ext_in. intros v _. unfold gndterm.
  assert (Hp : forall q (F G : nat -> f64), (forall k, (k < q)%nat -> F k = G k) -> gprod F64 q F = gprod F64 q G).
  { induction q as [|q IH]; intros F G HFG; [reflexivity|]. cbn [gprod]. rewrite (IH F G), HFG by (intros; try apply HFG; lia).
    reflexivity. }
  apply Hp. intros k Hk.
  assert (Ex : nth k (map (fun r => [nth j r (f64_int 0)]) (md x)) [] = [nth j (nth k (md x) []) (f64_int 0)]).
  { rewrite (nth_indep (map _ (md x)) [] ((fun r => [nth j r (f64_int 0)]) [])) by (rewrite map_length; lia).
    rewrite (map_nth (fun r => [nth j r (f64_int 0)])). reflexivity. }
  change (md x1) with (map (fun r => [nth j r (f64_int 0)]) (md x)). rewrite Ex. reflexivity.
Qed.
