(** The multivariate class: tangents, shapes, constraints. *)
From Coq Require Import Reals Arith Lia Lra List Bool ZArith Permutation.
From Coquelicot Require Import Coquelicot.
From Verif Require Import Base ProofBase Numbers ModelBFPy ModelBFCpp ProofTab ProofBFPy ProofBFCpp SpecBasis
  ProofH ModelELM SpecELM ProofELM ModelND SpecND ProofND ProofND2 ModelNELM SpecNELM ProofNELM ProofNELM2
  ModelUtfc SpecUtfc ProofUtfc ModelMtfc SpecMtfc ProofMtfc.
Import ListNotations.
Open Scope R_scope.

(** ** C28: the tangent rule *)
Definition bm (N : nat) (K : list (list nat)) (G : nat -> list nat -> R) : mat R :=
  Mat N (length K) (map (fun j => map (G j) K) (seq 0 N)).
Lemma bm_ext N K G G' : (forall j v, (j < N)%nat -> G j v = G' j v) -> bm N K G = bm N K G'.
Proof.
  intros H. unfold bm. f_equal. apply map_ext_in. intros j Hj%in_seq. apply map_ext. intros v. apply H. lia.
Qed.
Lemma combine_map_map {X Y Z} (f : X -> Y) (g : X -> Z) l : combine (map f l) (map g l) = map (fun x => (f x, g x)) l.
Proof. induction l as [|a l IH]; [reflexivity|]. cbn. rewrite IH. reflexivity. Qed.
Lemma bm_zeros N K : mat_zeros ROps N (length K) = bm N K (fun _ _ => 0).
Proof.
  unfold mat_zeros, bm. f_equal. cbn [ROps o0].
  assert (H : forall (X : Type) (x : X) (l : list nat), map (fun _ => x) l = repeat x (length l)) by (induction l; cbn; congruence).
  assert (H' : map (fun _ : list nat => 0) K = repeat 0 (length K)) by (clear; induction K; cbn; congruence).
  rewrite H', H, seq_length. reflexivity.
Qed.
Lemma bm_add N K G G' : mat_add ROps (bm N K G) (bm N K G') = Some (bm N K (fun j v => G j v + G' j v)).
Proof.
  unfold mat_add. cbn [bm mr mc md]. rewrite !Nat.eqb_refl. cbn [andb]. f_equal. unfold bm. f_equal.
  rewrite combine_map_map, map_map. apply map_ext. intros j. cbn [fst snd]. rewrite combine_map_map, map_map. reflexivity.
Qed.
Lemma list_as_map (l : list R) : l = map (fun j => nth j l 0) (seq 0 (length l)).
Proof.
  induction l as [|a l IH]; [reflexivity|]. cbn [length seq map nth]. f_equal. rewrite <- seq_shift, map_map. exact IH.
Qed.
Lemma bm_scale N K G t : length t = N -> scale_rows ROps (bm N K G) t = Some (bm N K (fun j v => G j v * nth j t 0)).
Proof.
  intros Hl. unfold scale_rows. cbn [bm mr mc md]. rewrite Hl, Nat.eqb_refl. f_equal. unfold bm. f_equal.
  rewrite (list_as_map t), Hl at 1. rewrite combine_map_map, map_map. apply map_ext. intros j. cbn [fst snd].
  rewrite map_map. reflexivity.
Qed.
Lemma plus_one_nth d k i : (k < length d)%nat -> nth i (plus_one d k) 0%nat = if (k =? i)%nat then S (nth i d 0%nat) else nth i d 0%nat.
Proof.
  intros Hk. unfold plus_one. pose proof (firstn_length_le d (Nat.lt_le_incl _ _ Hk)) as Hf.
  destruct (Nat.eqb_spec k i) as [<-|Hne].
  - rewrite app_nth2, Hf, Nat.sub_diag by lia. reflexivity.
  - destruct (Nat.lt_ge_cases i k) as [Hi|Hi].
    + rewrite app_nth1 by lia. rewrite <- (firstn_skipn k d) at 2. rewrite app_nth1 by lia. reflexivity.
    + rewrite app_nth2 by lia. rewrite Hf. destruct (i - k)%nat as [|e] eqn:Ee; [lia|]. cbn [nth].
      rewrite <- (firstn_skipn (S k) d) at 2.
      rewrite app_nth2; rewrite firstn_length_le by lia; [|lia]. f_equal. lia.
Qed.
Lemma plus_one_length d k : (k < length d)%nat -> length (plus_one d k) = length d.
Proof. intros Hk. unfold plus_one. rewrite app_length, firstn_length_le by lia. cbn [length]. rewrite skipn_length. lia. Qed.
Lemma bump_plus_one d k : (k < length d)%nat -> ModelMtfc.bump d k = plus_one d k.
Proof.
  intros Hk. apply (nth_ext _ _ 0%nat 0%nat).
  - unfold ModelMtfc.bump. rewrite map_length, seq_length, plus_one_length by exact Hk. reflexivity.
  - unfold ModelMtfc.bump. rewrite map_length, seq_length. intros i Hi. rewrite plus_one_nth by exact Hk.
    rewrite (nth_indep _ 0%nat (if (k =? 0)%nat then S (nth 0 d 0%nat) else nth 0 d 0%nat)) by (rewrite map_length, seq_length; exact Hi).
    rewrite (map_nth (fun j => if (k =? j)%nat then S (nth j d 0%nat) else nth j d 0%nat) (seq 0 (length d)) 0%nat).
    rewrite seq_nth by exact Hi. reflexivity.
Qed.
Lemma plus_one_sum d k : (k < length d)%nat -> list_sum (plus_one d k) = S (list_sum d).
Proof.
  intros Hk. unfold plus_one. rewrite list_sum_app, lsum_cons. rewrite <- (firstn_skipn k d) at 4.
  rewrite list_sum_app. destruct (skipn k d) as [|a r] eqn:Es.
  - apply (f_equal (@length nat)) in Es. rewrite skipn_length in Es. cbn in Es. lia.
  - assert (a = nth k d 0%nat).
    { rewrite <- (firstn_skipn k d), Es, app_nth2; rewrite firstn_length_le by lia; [|lia]. rewrite Nat.sub_diag. reflexivity. }
    assert (skipn (S k) d = r).
    { clear - Es. revert d Es. induction k as [|k IH]; intros [|x d] Es; cbn in *; try discriminate.
      - injection Es as _ ->. reflexivity.
      - apply IH, Es. }
    rewrite lsum_cons, H0, H. lia.
Qed.

(** *** derivative along a direction *)
Lemma cst_derive (c t : R) : is_derive (fun _ : R => c) t 0.
Proof. auto_derive; [trivial|ring]. Qed.
Lemma sumn_scal n c F : c * sumn n F = sumn n (fun i => c * F i).
Proof. induction n as [|n IH]; cbn [sumn]; [ring|]. rewrite <- IH. ring. Qed.
Lemma prodn_derive n : forall (F : nat -> R -> R) (F' : nat -> R) t, (forall k, (k < n)%nat -> is_derive (F k) t (F' k)) ->
  is_derive (fun s => prodn n (fun k => F k s)) t (sumn n (fun k => prodn n (fun i => if (k =? i)%nat then F' i else F i t))).
Proof.
  induction n as [|n IH]; intros F F' t H.
  - cbn. apply cst_derive.
  - cbn [prodn sumn]. rewrite Nat.eqb_refl.
    rewrite (sumn_ext n _ (fun k => prodn n (fun i => if (k =? i)%nat then F' i else F i t) * F n t)).
    2:{ intros k Hk. destruct (Nat.eqb_spec k n); [lia|]. reflexivity. }
    rewrite (prodn_ext n (fun i => if (n =? i)%nat then F' i else F i t) (fun i => F i t)).
    2:{ intros k Hk. destruct (Nat.eqb_spec n k); [lia|]. reflexivity. }
    replace (sumn n _) with (sumn n (fun k => prodn n (fun i => if (k =? i)%nat then F' i else F i t)) * F n t).
    2:{ rewrite Rmult_comm, sumn_scal. apply sumn_ext. intros; ring. }
    apply (is_derive_mult (fun s => prodn n (fun k => F k s)) (F n)).
    + apply IH. intros k Hk. apply H. lia.
    + apply H. lia.
    + intros; apply Rmult_comm.
Qed.
Lemma sumn_derive n : forall (F : nat -> R -> R) (F' : nat -> R) t, (forall k, (k < n)%nat -> is_derive (F k) t (F' k)) ->
  is_derive (fun s => sumn n (fun k => F k s)) t (sumn n F').
Proof.
  induction n as [|n IH]; intros F F' t H; cbn [sumn]; [apply cst_derive|].
  apply (is_derive_plus (fun s => sumn n (fun k => F k s)) (F n)); [apply IH; intros; apply H; lia|apply H; lia].
Qed.

Lemma ndcol_derive f x0 xf k a d t : is_derive (fun t => ndcol f x0 xf k t d a) t (ndcol f x0 xf k t (S d) a).
Proof.
  pose proof (ndcol_deriv f x0 xf k a (S d) t) as H. cbn [is_derive_n] in H.
  apply (is_derive_ext (Derive_n (fun t => ndcol f x0 xf k t 0 a) d)); [|exact H].
  intros s. apply is_derive_n_unique. apply ndcol_deriv.
Qed.
Lemma line_derive X V t : is_derive (fun s => X + s * V) t V.
Proof. auto_derive; [trivial|ring]. Qed.
Lemma mcolf_direction bs dim deg x0 xf w b d v X V : smoothm bs -> length d = dim ->
  is_derive (fun t => mcolf bs dim deg x0 xf w b d v (fun k => X k + t * V k)) 0
    (sumn dim (fun k => mcolf bs dim deg x0 xf w b (plus_one d k) v X * V k)).
Proof.
  intros Hs Hd. destruct bs as [f|f].
  - cbn [mcolf]. unfold ndterm.
    rewrite (sumn_ext dim _ (fun k => prodn dim (fun i => if (k =? i)%nat then ndcol f x0 xf i (X i + 0 * V i) (S (nth i d 0%nat)) (nth i v 0%nat) * V i
                                              else ndcol f x0 xf i (X i + 0 * V i) (nth i d 0%nat) (nth i v 0%nat)))).
    + apply (prodn_derive dim (fun i t => ndcol f x0 xf i (X i + t * V i) (nth i d 0%nat) (nth i v 0%nat))
         (fun i => ndcol f x0 xf i (X i + 0 * V i) (S (nth i d 0%nat)) (nth i v 0%nat) * V i)).
      intros k Hk. rewrite Rmult_comm.
      apply (is_derive_comp (fun t => ndcol f x0 xf k t (nth k d 0%nat) (nth k v 0%nat)) (fun t => X k + t * V k)).
      * apply ndcol_derive.
      * apply line_derive.
    + intros k Hk.
      transitivity (prodn dim (fun i => ndcol f x0 xf i (X i) (nth i (plus_one d k) 0%nat) (nth i v 0%nat) * (if (k =? i)%nat then V i else 1))).
      * rewrite prodn_mul. f_equal. symmetry. clear - Hk. induction dim as [|n IH]; [lia|]. cbn [prodn].
        destruct (Nat.eqb_spec k n) as [->|Hne].
        -- rewrite prodn_1; [ring|]. intros i Hi. destruct (Nat.eqb_spec n i); [lia|reflexivity].
        -- rewrite IH by lia. ring.
      * apply prodn_ext. intros i Hi. rewrite plus_one_nth by lia. rewrite Rmult_0_l, Rplus_0_r.
        destruct (k =? i)%nat; ring.
  - set (k := hd 0%nat v). set (m := S deg).
    apply (is_derive_ext (fun t => ncoef dim m w x0 xf d k * nG f (list_sum d) (narg dim m w b x0 xf k (fun i => X i + t * V i)))).
    { intros t. rewrite mcolf_elm. reflexivity. }
    assert (Hc : forall i, (i < dim)%nat -> ncoef dim m w x0 xf (plus_one d i) k = ncoef dim m w x0 xf d k * nal m w x0 xf k i).
    { intros i Hi. unfold ncoef, nal.
      assert (Hp : forall G : nat -> R, prodn dim (fun e => G e ^ nth e (plus_one d i) 0%nat) = prodn dim (fun e => G e ^ nth e d 0%nat) * G i).
      { intros G. transitivity (prodn dim (fun e => G e ^ nth e d 0%nat * (if (i =? e)%nat then G e else 1))).
        - apply prodn_ext. intros e He. rewrite plus_one_nth by lia. destruct (i =? e)%nat; cbn [pow]; ring.
        - rewrite prodn_mul. f_equal. clear - Hi. induction dim as [|n IH]; [lia|]. cbn [prodn].
          destruct (Nat.eqb_spec i n) as [->|Hne].
          + rewrite prodn_1; [ring|]. intros e He. destruct (Nat.eqb_spec n e); [lia|reflexivity].
          + rewrite IH by lia. ring. }
      rewrite (Hp (nci x0 xf)), (Hp (fun e => nth (e * m + k) w 0)). ring. }
    rewrite (sumn_ext dim _ (fun i => ncoef dim m w x0 xf d k * ((nal m w x0 xf k i * V i) * nG f (S (list_sum d)) (narg dim m w b x0 xf k X)))).
    2:{ intros i Hi. rewrite mcolf_elm, plus_one_sum by lia. fold k m. rewrite Hc by exact Hi. ring. }
    rewrite <- sumn_scal. apply (is_derive_scal (fun t => nG f (list_sum d) (narg dim m w b x0 xf k (fun i => X i + t * V i)))).
    rewrite (sumn_ext dim _ (fun i => nG f (S (list_sum d)) (narg dim m w b x0 xf k X) * (nal m w x0 xf k i * V i))) by (intros; ring).
    rewrite <- sumn_scal, Rmult_comm.
    replace (narg dim m w b x0 xf k X) with (narg dim m w b x0 xf k (fun i => X i + 0 * V i)).
    2:{ rewrite !narg_alt. f_equal. apply sumn_ext. intros; ring. }
    apply (is_derive_comp (nG f (list_sum d)) (fun t => narg dim m w b x0 xf k (fun i => X i + t * V i))).
    + apply nG_deriv. intros ->. exfalso. apply Hs. reflexivity.
    + apply (is_derive_ext (fun t => sumn dim (fun i => nth (i * m + k) w 0 * ((X i + t * V i - nth i x0 0) * nci x0 xf i)) + nth k b 0)).
      { intros t. rewrite narg_alt. reflexivity. }
      replace (sumn dim (fun i => nal m w x0 xf k i * V i)) with (sumn dim (fun i => nal m w x0 xf k i * V i) + 0) by ring.
      apply (is_derive_plus (fun t => sumn dim (fun i => nth (i * m + k) w 0 * ((X i + t * V i - nth i x0 0) * nci x0 xf i))) (fun _ => nth k b 0)).
      * apply sumn_derive. intros i Hi. unfold nal. auto_derive; [trivial|ring].
      * apply cst_derive.
Qed.

Section Mtfc.
Variable jvpn : (list R -> R) -> list R -> list R -> R.
Hypothesis Hj : jvpn_ok jvpn.
Variables (be : backend) (bs : mbasis) (n : list nat) (nC : mnc_arg) (deg dim : nat) (x0 xf w b : list R) (u : mtfc (T:=R)).
Hypothesis Hu : mkm be bs n nC deg dim x0 xf w b = Some u.
Hypothesis Ha : argsm bs nC deg dim x0 xf w b.
Let K := mK bs dim deg nC.
Let col := mcolf bs dim deg x0 xf w b.
Lemma Hm d full N x : canm be bs dim d -> shaped x dim N ->
  mtfc_H ROps RFun jvpn u (md x) d full = Some (mmat bs dim deg x0 xf w b (K full) d N x).
Proof. exact (ProofMtfc.mH jvpn Hj be bs n nC deg dim x0 xf w b u Hu Ha d full N x). Qed.
Lemma Hnum full : mtfc_num u full = length (K full).
Proof. exact (ProofMtfc.mnum be bs n nC deg dim x0 xf w b u Hu Ha full). Qed.

Lemma mmat_bm KK d N x : mmat bs dim deg x0 xf w b KK d N x = bm N KK (fun j v => col d v (xat x j)).
Proof. reflexivity. Qed.

Lemma jvp_value d full N x tans :
  canm be bs dim d -> (forall k, (k < dim)%nat -> canm be bs dim (plus_one d k)) -> shaped x dim N -> tangents dim N tans ->
  mtfc_jvp ROps RFun jvpn u (md x) tans d full =
    Some (mmat bs dim deg x0 xf w b (K full) d N x,
          bm N (K full) (fun j v => sumn dim (fun k => col (plus_one d k) v (xat x j) * tan_at tans k j))).
Proof.
  intros Hc Hck Hx [Ht1 Ht2]. unfold mtfc_jvp.
  assert (Hhd : exists r l, md x = r :: l /\ length r = N).
  { destruct Hx as (H1 & H2 & H3 & H4). pose proof (proj1 Ha) as Hdim. destruct (md x) as [|r l]; [cbn in H3; lia|].
    exists r, l. split; [reflexivity|]. apply H4. left. reflexivity. }
  destruct Hhd as (r & l0 & Er & HrN). rewrite Er at 1. cbn [nth_error bind]. rewrite HrN, Hnum, bm_zeros.
  assert (HL : length (md x) = dim) by apply Hx. rewrite HL.
  rewrite (for_acc (fun k => bm N (K full) (fun j v => sumn k (fun k => col (plus_one d k) v (xat x j) * tan_at tans k j)))).
  - cbn [bind]. rewrite (Hm d full N x Hc Hx). reflexivity.
  - intros k Hk.
    destruct (nth_error tans k) as [t|] eqn:Et; [|apply nth_error_None in Et; lia]. cbn [bind].
    assert (Hnt : forall j, tan_at tans k j = match t with None => 0 | Some l => nth j l 0 end).
    { intros j. unfold tan_at. rewrite (nth_error_nth _ _ None Et). reflexivity. }
    assert (Hskip : (forall j, tan_at tans k j = 0) ->
      bm N (K full) (fun j v => sumn k (fun k => col (plus_one d k) v (xat x j) * tan_at tans k j)) =
      bm N (K full) (fun j v => sumn (1 + k) (fun k => col (plus_one d k) v (xat x j) * tan_at tans k j))).
    { intros H0. apply bm_ext. intros j v _. cbn [Nat.add sumn]. rewrite H0. ring. }
    destruct t as [tk|].
    + destruct (existsb (nonzero ROps RFun) tk) eqn:Ex.
      * rewrite bump_plus_one by (rewrite (proj1 Hc); exact Hk).
        rewrite (Hm (plus_one d k) full N x (Hck k Hk) Hx). cbn [bind]. rewrite mmat_bm, bm_scale.
        2:{ apply Ht2. apply nth_error_In with k. exact Et. }
        cbn [bind]. rewrite bm_add. f_equal. apply bm_ext. intros j v _. cbn [Nat.add sumn]. rewrite Hnt. reflexivity.
      * f_equal. apply Hskip. intros j. rewrite Hnt.
        destruct (Nat.lt_ge_cases j (length tk)) as [Hjl|Hjl]; [|apply nth_overflow; exact Hjl].
        destruct (Req_dec (nth j tk 0) 0) as [->|Hne]; [reflexivity|]. exfalso.
        assert (existsb (nonzero ROps RFun) tk = true); [|congruence].
        apply existsb_exists. exists (nth j tk 0). split; [apply nth_In; exact Hjl|]. apply nonzero_R, Hne.
    + f_equal. apply Hskip. exact Hnt.
Qed.

Lemma bm_shaped N KK G : shaped (bm N KK G) N (length KK).
Proof.
  repeat split; cbn [bm mr mc md]; [rewrite map_length; apply seq_length|].
  intros r Hr. apply in_map_iff in Hr as (j & <- & _). apply map_length.
Qed.
Lemma bm_ent N KK G j i : (j < N)%nat -> ment (bm N KK G) j i = option_map (G j) (nth_error KK i).
Proof.
  intros Hjn. unfold ment. cbn [bm md]. rewrite nth_error_map_seq. destruct (Nat.ltb_spec j N); [|lia].
  cbn [bind]. apply nth_error_map.
Qed.

Lemma c28 d full N x tans :
  canm be bs dim d -> (forall k, (k < dim)%nat -> canm be bs dim (plus_one d k)) -> shaped x dim N -> tangents dim N tans ->
  exists M out, mtfc_jvp ROps RFun jvpn u (md x) tans d full = Some (M, out) /\
    mtfc_H ROps RFun jvpn u (md x) d full = Some M /\ shaped out N (mtfc_num u full) /\
    forall j i, (j < N)%nat -> (i < mtfc_num u full)%nat -> exists v : nat -> R,
      (forall k, (k < dim)%nat -> exists Mk, mtfc_H ROps RFun jvpn u (md x) (plus_one d k) full = Some Mk /\ ment Mk j i = Some (v k)) /\
      ment out j i = Some (sumn dim (fun k => v k * tan_at tans k j)).
Proof.
  intros Hc Hck Hx Ht. rewrite (jvp_value d full N x tans Hc Hck Hx Ht). eexists. eexists. split; [reflexivity|].
  split; [apply Hm; assumption|]. rewrite Hnum. split; [apply bm_shaped|].
  intros j i Hjn Hi. set (v := nth i (K full) []).
  assert (Hv : nth_error (K full) i = Some v) by (apply nth_error_nth'; exact Hi).
  exists (fun k => col (plus_one d k) v (xat x j)). split.
  - intros k Hk. eexists. split; [apply (Hm _ _ N); [apply Hck, Hk|exact Hx]|]. rewrite mmat_ent, Hv by exact Hjn. reflexivity.
  - rewrite bm_ent, Hv by exact Hjn. reflexivity.
Qed.

Lemma moved_shaped N x tans t : shaped (movedm dim N x tans t) dim N.
Proof.
  repeat split; cbn [movedm mr mc md]; [rewrite map_length; apply seq_length|].
  intros r Hr. apply in_map_iff in Hr as (j & <- & _). rewrite map_length. apply seq_length.
Qed.
Lemma moved_xat N x tans t j k : (k < dim)%nat -> (j < N)%nat ->
  xat (movedm dim N x tans t) j k = xat x j k + t * tan_at tans k j.
Proof.
  intros Hk Hjn. apply (at_col_xat (movedm dim N x tans t) j dim (fun k => xat x j k + t * tan_at tans k j) k); [|exact Hk].
  intros i Hi. unfold ment. cbn [movedm md]. rewrite nth_error_map_seq. destruct (Nat.ltb_spec i dim); [|lia]. cbn [bind].
  rewrite nth_error_map_seq. destruct (Nat.ltb_spec j N); [|lia]. reflexivity.
Qed.
Lemma c28_direction d full N x tans : smoothm bs ->
  canm be bs dim d -> (forall k, (k < dim)%nat -> canm be bs dim (plus_one d k)) -> shaped x dim N -> tangents dim N tans ->
  exists M out, mtfc_jvp ROps RFun jvpn u (md x) tans d full = Some (M, out) /\
  forall j i, (j < N)%nat -> (i < mtfc_num u full)%nat -> exists (phi : R -> R) l,
    (forall t, exists Mt, mtfc_H ROps RFun jvpn u (md (movedm dim N x tans t)) d full = Some Mt /\ ment Mt j i = Some (phi t)) /\
    is_derive phi 0 l /\ ment out j i = Some l.
Proof.
  intros Hs Hc Hck Hx Ht. rewrite (jvp_value d full N x tans Hc Hck Hx Ht). eexists. eexists. split; [reflexivity|].
  rewrite Hnum. intros j i Hjn Hi. set (v := nth i (K full) []).
  assert (Hv : nth_error (K full) i = Some v) by (apply nth_error_nth'; exact Hi).
  exists (fun t => col d v (fun k => xat x j k + t * tan_at tans k j)),
         (sumn dim (fun k => col (plus_one d k) v (xat x j) * tan_at tans k j)).
  split; [|split].
  - intros t. eexists. split; [apply (Hm _ _ N); [exact Hc|apply moved_shaped]|]. rewrite mmat_ent, Hv by exact Hjn.
    cbn [option_map]. f_equal. apply mcolf_ext. intros k Hk. apply moved_xat; assumption.
  - apply mcolf_direction; [exact Hs|apply Hc].
  - rewrite bm_ent, Hv by exact Hjn. reflexivity.
Qed.

(** ** C15, C59 *)
Lemma c15m d full N x : be = Cpp -> canm be bs dim d -> shaped x dim N ->
  exists M, mtfc_H ROps RFun jvpn u (md x) d full = Some M /\ mtfc_compiled ROps RFun u (md x) d full = Some M.
Proof.
  intros Hb Hc Hx. destruct (mtfc_H_ok jvpn be bs n nC deg dim x0 xf w b u d full N x Hj Hu Ha Hc Hx) as (E & _ & _ & Ec).
  eexists. split; [exact E|apply Ec, Hb].
Qed.
Lemma c59m d full N x : canm be bs dim d -> shaped x dim N ->
  exists rows, mvmap_H ROps RFun jvpn u (md x) d full = Some rows /\ length rows = N /\
  forall j X, (j < N)%nat -> at_col x j dim X -> exists M1 r, mtfc_H ROps RFun jvpn u (md (one_point dim X)) d full = Some M1 /\
    shaped M1 1 (mtfc_num u full) /\ md M1 = [r] /\ nth_error rows j = Some r /\ mtfc_abstract u [] full = [length r].
Proof.
  intros Hc Hx. unfold mvmap_H. rewrite (Hm d full N x Hc Hx). cbn [bind]. eexists. split; [reflexivity|].
  cbn [mmat md]. split; [rewrite map_length; apply seq_length|].
  intros j X Hjn HX. rewrite (Hm d full 1%nat _ Hc (one_point_shaped dim X)). eexists. eexists. split; [reflexivity|].
  rewrite Hnum. split; [apply mmat_shaped|]. split; [reflexivity|]. split.
  - rewrite nth_error_map_seq. destruct (Nat.ltb_spec j N); [|lia]. f_equal. apply map_ext. intros v. apply mcolf_ext.
    intros k Hk. rewrite one_point_xat by exact Hk. apply (at_col_xat x j dim X k HX Hk).
  - cbn [mtfc_abstract]. rewrite map_length, Hnum. reflexivity.
Qed.
Lemma c14m d full N x : canm be bs dim d -> shaped x dim N ->
  exists M, mtfc_H ROps RFun jvpn u (md x) d full = Some M /\ has_shape M (mtfc_abstract u [N] full).
Proof.
  intros Hc Hx. eexists. split; [apply (Hm _ _ N); assumption|]. cbn [mtfc_abstract]. exists N, (mtfc_num u full). split; [reflexivity|].
  rewrite Hnum. apply mmat_shaped.
Qed.
End Mtfc.

(** ** C14, C++: any constraint list *)
Lemma c14m_cpp jvpn bs n nC deg dim x0 xf w b u x xs d full M : mkm Cpp bs n nC deg dim x0 xf w b = Some u ->
  mtfc_H ROps RFun jvpn u (x :: xs) d full = Some M -> has_shape M (mtfc_abstract u [length x] full).
Proof.
  intros Hu. apply mkm_inv in Hu as (_ & _ & _ & _ & B & z0 & zf & z & xp & _ & _ & ->). unfold mtfc_H. cbn [stack].
  destruct (forallb _ (x :: xs)); [|discriminate]. cbn [bind m_basis m_be m_B m_w m_b]. unfold mtfc_abstract, mtfc_num. cbn [m_B].
  destruct bs as [f|f]; cbn [nd_H nelm_H].
  - unfold cpp_nH. cbn [mc mr md]. match goal with |- bind ?e _ = _ -> _ => destruct e as [F|]; [|discriminate] end. cbn [bind].
    match goal with |- bind ?e _ = _ -> _ => destruct e as [rows|] eqn:Er; [|discriminate] end. cbn [bind].
    intros E. apply some_inj in E. subst M. do 2 eexists. split; [reflexivity|]. apply (buf_matrix_shape F), Er.
  - unfold cpp_nelm_H. cbn [mc mr md]. match goal with |- bind ?e _ = _ -> _ => destruct e as [F|]; [|discriminate] end. cbn [bind].
    match goal with |- bind ?e _ = _ -> _ => destruct e as [rows|] eqn:Er; [|discriminate] end. cbn [bind].
    intros E. apply some_inj in E. subst M. do 2 eexists. split; [reflexivity|]. apply (buf_matrix_shape F), Er.
Qed.
(** Python ELM with a repeated entry: [np.delete] removes one column, two are subtracted *)
Lemma c14m_refuted jvpn w0 w1 w2 b0 b1 b2 : exists u M,
  mkm Py (ME Sin) [2%nat] (MJax1 [0; 0]%Z) 2 1 [0] [1] [w0; w1; w2] [b0; b1; b2] = Some u /\
  mtfc_H ROps RFun jvpn u [[0]] [0%nat] false = Some M /\ mtfc_abstract u [1%nat] false = [1; 1]%nat /\ shaped M 1 2.
Proof.
  eexists. eexists. split; [cbn; reflexivity|]. split; [cbn; reflexivity|]. split; [reflexivity|].
  repeat split. intros r [<-|[]]. reflexivity.
Qed.
