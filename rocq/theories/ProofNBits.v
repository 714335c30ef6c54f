(** n-dimensional bases in any arithmetic: both backends perform the same operations in the same
    order (no algebraic law is used, as in ProofBits.v). *)
From Coq Require Import Arith Lia List Bool ZArith.
From Verif Require Import Base ProofBase ModelBFPy ModelBFCpp ProofTab ProofBFPy ProofBFCpp ProofH SpecBasis
  ModelND ProofND ProofBits.
Import ListNotations.

Section Any.
Context {T : Type} (A : Ops T) (E : Fun T).
Local Notation "0" := (o0 A). Local Notation "1" := (o1 A).
Local Infix "+" := (oadd A). Local Infix "-" := (osub A).
Local Infix "*" := (omul A). Local Infix "/" := (odiv A).

(** 1 * F 0 * ... * F (n - 1), from the left *)
Fixpoint gprod (n : nat) (F : nat -> T) : T := match n with O => 1 | S n' => gprod n' F * F n' end.

Record gnb (dim m : nat) (nC : list (list Z)) (x0 c : list T) (z0 : T) (B : nbasis (T:=T)) : Prop := {
  g_dim : nb_dim B = dim; g_m : nb_m B = m; g_nC : nb_nC B = nC;
  g_flat : flat_ok nC dim (nb_numC B) (nb_flat B);
  g_x0 : nb_x0 B = x0; g_c : nb_c B = c; g_z0 : nb_z0 B = z0;
  g_num : forall full : bool, (if full then nb_numFull B else nb_num B) = length (idxs dim m nC full);
  g_lx : length x0 = dim; g_lc : length c = dim }.

Section Obj.
Variables (f : fam) (dim m : nat) (nC : list (list Z)) (x0 c : list T) (z0 : T) (B : nbasis (T:=T)).
Hypothesis HB : gnb dim m nC x0 c z0 B.
Hypothesis Hd : (1 <= dim)%nat.
Hypothesis Hm : (1 <= m)%nat.
Let gD := g_dim _ _ _ _ _ _ _ HB. Let gM := g_m _ _ _ _ _ _ _ HB. Let gN := g_nC _ _ _ _ _ _ _ HB.
Let gX := g_x0 _ _ _ _ _ _ _ HB. Let gC := g_c _ _ _ _ _ _ _ HB. Let gZ := g_z0 _ _ _ _ _ _ _ HB.
Let gLX := g_lx _ _ _ _ _ _ _ HB. Let gLC := g_lc _ _ _ _ _ _ _ HB.

Definition gz (k : nat) (t : T) : T := (t - nth k x0 0) * nth k c 0 + z0.
Definition gndcol (k : nat) (t : T) (d a : nat) : T := gcol A E f a d (gz k t) * opow A (nth k c 0) d.
Definition gndterm (X : nat -> T) (d v : list nat) : T :=
  gprod dim (fun k => gndcol k (X k) (nth k d 0%nat) (nth k v 0%nat)).
Definition gndmat (x : mat T) (d : list nat) (full : bool) : mat T :=
  let idx := idxs dim m nC full in
  Mat (mc x) (length idx) (map (fun j => map (gndterm (fun k => nth j (nth k (md x) []) 0) d) idx) (seq 0 (mc x))).

(** *** Python *)
Lemma gpy_nd_row full Tk (t : nat -> nat -> T) : length Tk = dim ->
  (forall k a, (k < dim)%nat -> (a < m)%nat -> exists row, nth_error Tk k = Some row /\ nth_error row a = Some (t k a)) ->
  py_nd_row A B full Tk = Some (map (fun v => gprod dim (fun k => t k (nth k v 0%nat))) (idxs dim m nC full)).
Proof.
  intros HTl HT. unfold py_nd_row. rewrite gD, gM, gN, (g_num _ _ _ _ _ _ _ HB full).
  clear gD gM gN gX gC gZ gLX gLC HB. destruct dim as [|dim']; [lia|].
  set (idx := idxs (S dim') m nC full) in *.
  set (V := fun v => gprod (S dim') (fun k => t k (nth k v 0%nat))).
  destruct (fill_fold (py_keep m nC full) V
    (fun v out n => tt <- py_multT A Tk (S dim') v ;; bwr out n tt) (length idx) (vecs m (S dim')) 0%nat
    (bfill (length idx) 0) (fun _ => 0)) as (o' & E' & Hl' & _ & HV').
  - intros v b n' Hv _ _ _.
    assert (Em : py_multT A Tk (S dim') v = Some (V v)); [|rewrite Em; reflexivity].
    unfold py_multT.
    destruct (for_inv (fun k s => s = gprod k (fun k => t k (nth k v 0%nat)))
      (fun k tout => row <- nth_error Tk k ;; v <- nth_error v k ;; t <- nth_error row v ;; Some (tout * t))
      0%nat (S dim') 1) as (s & Es & H); [lia|reflexivity| |rewrite Es, H; reflexivity].
    intros k s Hk ->.
    destruct (HT k (nth k v 0%nat)) as (row & Hrow & Hrv); [lia|apply (vecs_nth m (S dim')); [lia|exact Hv]|].
    pose proof (vecs_len _ _ _ Hv) as Hvl.
    rewrite Hrow, (nth_error_nth' v 0%nat) by lia. cbn [bind]. rewrite Hrv. cbn [bind].
    eexists; split; reflexivity.
  - reflexivity.
  - cbn. apply Nat.le_refl.
  - intros i Hi; lia.
  - destruct (nrec_run m (fun vec (st : buf T * nat) =>
             let (out, n) := st in
             v <- bto_list vec ;;
             if py_keep m nC full v then
               t <- py_multT A Tk (S dim') v ;;
               out <- bwr out n t ;;
               Some (out, S n)
             else Some (out, n))
      (fun v (st : buf T * nat) => let (out, n) := st in
         if py_keep m nC full v then out <- (tt <- py_multT A Tk (S dim') v ;; bwr out n tt) ;; Some (out, S n)
         else Some (out, n)) dim' (bfill (S dim') 0%nat) (bfill (length idx) 0, 0%nat)
      (o', (Nat.add 0 (length (filter (py_keep m nC full) (vecs m (S dim'))))))) as (v' & Er).
    + intros b v [out n] Hl Hv. rewrite (is_vec_list _ _ Hv). cbn [bind]. destruct (py_keep _ _ _ v); [|reflexivity].
      destruct (py_multT A Tk (S dim') v); reflexivity.
    + reflexivity.
    + exact E'.
    + rewrite Er. cbn [bind fst snd].
      rewrite (bto_list_holds o' (fun i => V (nth i idx []))).
      * f_equal. rewrite Hl'. apply (map_seq_nth V idx []).
      * intros i Hi. rewrite <- (HV' i (nth i idx [])); [reflexivity|]. apply nth_error_nth'.
        fold (idxs (S dim') m nC full). fold idx. lia.
Qed.

Lemma gpy_nH x d full n : shaped x dim n -> (dim <= length d)%nat ->
  (forall k, (k < dim)%nat -> small_ints A (nth k d 0%nat)) ->
  py_nH A E f B x d full = Some (gndmat x d full).
Proof.
  intros Hx Hdl Hs. unfold py_nH.
  pose proof Hx as (Hx1 & Hx2 & Hx3 & Hx4).
  rewrite gD, Hx1, Nat.eqb_refl. rewrite (g_num _ _ _ _ _ _ _ HB full).
  erewrite mapM_some_map; [reflexivity|]. intros j Hj%in_seq.
  assert (Ecol : mapM (fun r => nth_error r j) (md x) = Some (map (fun r => nth j r 0) (md x))).
  { apply mapM_some_map. intros r Hr. apply nth_error_nth'. rewrite Hx4 by exact Hr. lia. }
  rewrite Ecol. cbn [bind].
  set (X := fun k => nth j (nth k (md x) []) 0).
  assert (Ez : py_nd_z A B (map (fun r => nth j r 0) (md x)) = map (fun k => gz k (X k)) (seq 0 dim)).
  { unfold py_nd_z. rewrite gX, gC, gZ.
    apply nth_error_ext. intros i. rewrite nth_error_map_seq, nth_error_map.
    destruct (Nat.ltb_spec i dim) as [Hi|Hi].
    - rewrite (proj2 (nth_error_combine _ _ i (X i, (nth i x0 0, nth i c 0)))); [reflexivity|].
      cbn [fst snd]. split.
      + rewrite nth_error_map, (nth_error_nth' _ []) by lia. reflexivity.
      + apply nth_error_combine. cbn [fst snd]. split; apply nth_error_nth'; lia.
    - destruct (nth_error (combine _ _) i) eqn:Ei; [|reflexivity].
      match type of Ei with nth_error ?l _ = _ => assert (Hlt : (i < length l)%nat) by (apply nth_error_Some; congruence) end.
      rewrite combine_length, map_length in Hlt. lia. }
  rewrite Ez.
  assert (ET : py_nd_T A E f B (map (fun k => gz k (X k)) (seq 0 dim)) d =
    Some (map (fun k => map (fun a => gndcol k (X k) (nth k d 0%nat) a) (seq 0 m)) (seq 0 dim))).
  { unfold py_nd_T. rewrite gD, gC, gM.
    apply mapM_some_map. intros k Hk%in_seq.
    rewrite nth_error_map_seq. destruct (Nat.ltb_spec k dim); [|lia]. cbn [bind].
    rewrite (nth_error_nth' d 0%nat) by lia. cbn [bind].
    rewrite (nth_error_nth' c 0) by lia. cbn [bind]. rewrite gpy_row by (exact Hm || apply Hs; lia). cbn [bind].
    rewrite map_map. reflexivity. }
  rewrite ET. cbn [bind].
  erewrite (gpy_nd_row full _ (fun k a => gndcol k (X k) (nth k d 0%nat) a)).
  - reflexivity.
  - rewrite map_length, seq_length. reflexivity.
  - intros k a Hk Ha. eexists. rewrite nth_error_map_seq. destruct (Nat.ltb_spec k dim); [|lia]. split; [reflexivity|].
    rewrite nth_error_map_seq. destruct (Nat.ltb_spec a m); [reflexivity|lia].
Qed.

(** *** C++ *)
Lemma gcpp_nd_z (xb : buf T) n (X : nat -> nat -> T) :
  (forall k j, (k < dim)%nat -> (j < n)%nat -> brd xb (Nat.add (Nat.mul k n) j) = Some (X k j)) ->
  exists z, cpp_nd_z A B xb n = Some z /\ cols z dim n n (fun k j => gz k (X k j)).
Proof.
  intros Hx. unfold cpp_nd_z. rewrite gD, gX, gC, gZ.
  apply (for_rows dim n (fun k j => gz k (X k j))
    (fun j k z => xv <- brd xb (Nat.add (Nat.mul j n) k) ;; x0j <- nth_error x0 j ;;
       cj <- nth_error c j ;; bwr z (Nat.add (Nat.mul j n) k) ((xv - x0j) * cj + z0))).
  - reflexivity.
  - intros j k b Hj Hk _. rewrite Hx by assumption. rewrite (nth_error_nth' x0 0) by lia.
    rewrite (nth_error_nth' c 0) by lia. cbn [bind]. rewrite (Nat.mul_comm j n). reflexivity.
Qed.

Definition gtab (Tb : buf T) (n : nat) (t : nat -> nat -> nat -> T) : Prop :=
  forall k h a, (k < dim)%nat -> (h < n)%nat -> (a < m)%nat ->
    bcell Tb (m * n * k + (m * h + a))%nat = Some (t k h a).

Lemma gcpp_nd_T z n (Z : nat -> nat -> T) d : cols z dim n n Z ->
  exists Tb, cpp_nd_T A E f B z n d = Some Tb /\ blen Tb = (n * m * dim)%nat /\
    gtab Tb n (fun k h a => gcol A E f a (nth k d 0%nat) (Z k h) * opow A (nth k c 0) (nth k d 0%nat)).
Proof.
  intros Hz. unfold cpp_nd_T. rewrite gD, gM, gC.
  set (t := fun k h a => gcol A E f a (nth k d 0%nat) (Z k h) * opow A (nth k c 0) (nth k d 0%nat)).
  match goal with |- context [for_ 0%nat dim ?b ?s] =>
    destruct (for_inv (fun k (st : buf T * buf T) => blen (fst st) = (m * n)%nat /\ blen (snd st) = (n * m * dim)%nat /\
      forall k' h a, (k' < k)%nat -> (h < n)%nat -> (a < m)%nat ->
        bcell (snd st) (m * n * k' + (m * h + a))%nat = Some (t k' h a)) b 0%nat dim s) as ([dk Tb] & Er & _ & HlT & HT) end.
  - lia.
  - cbn. split; [lia|]. split; [reflexivity|lia].
  - intros k [dk Tb] Hk (Hld & HlT & HT). cbn [fst snd] in *.
    unfold bsub at 1. destruct Hz as [Hzl Hz].
    destruct (Nat.leb_spec (k * n + n) (blen z)) as [_|Hbad]; [|rewrite Hzl in Hbad; nia]. cbn [bind].
    rewrite (nth_error_nth' c 0) by lia. cbn [bind].
    destruct (gcpp_hint A E f m (nth k d 0%nat) (Buf n (fun i => bcell z (k * n + i)%nat)) (Z k) n dk Hm)
      as (dk' & Ed & Hdk).
    { split; [reflexivity|]. intros j Hj; cbn. rewrite <- (Hz k j) by lia. f_equal. lia. }
    { exact Hld. }
    rewrite Ed. cbn [bind].
    assert (Emul : (if (length d <=? k)%nat then 1 else opow A (nth k c 0) (nth k d 0%nat)) =
                   opow A (nth k c 0) (nth k d 0%nat)).
    { destruct (Nat.leb_spec (length d) k) as [Hle|Hle]; [rewrite (nth_overflow d) by exact Hle; reflexivity|reflexivity]. }
    rewrite Emul.
    destruct (for_inv (fun j Tb' => blen Tb' = (n * m * dim)%nat /\
       (forall k' h a, (k' < k)%nat -> (h < n)%nat -> (a < m)%nat ->
          bcell Tb' (m * n * k' + (m * h + a))%nat = Some (t k' h a)) /\
       forall h a, (h < n)%nat -> (a < m)%nat -> (m * h + a < j)%nat ->
          bcell Tb' (m * n * k + (m * h + a))%nat = Some (t k h a))
      (fun j Tb => v <- brd dk' j ;; bwr Tb (j + k * m * n)%nat (v * opow A (nth k c 0) (nth k d 0%nat)))
      0%nat (n * m)%nat Tb) as (Tb' & Er & HlT' & HT' & HT'').
    + lia.
    + split; [exact HlT|]. split; [exact HT|lia].
    + intros j Tb' Hj (HlT' & HT' & HT'').
      assert (Hex : exists h a, j = (m * h + a)%nat /\ (a < m)%nat /\ (h < n)%nat).
      { pose proof (Nat.div_mod j m ltac:(lia)) as Hja. pose proof (Nat.mod_upper_bound j m ltac:(lia)) as Ha.
        exists (j / m)%nat, (j mod m)%nat. split; [exact Hja|]. split; [exact Ha|]. nia. }
      destruct Hex as (h & a & -> & Ha & Hh).
      rewrite (cols_rd _ _ _ _ _ _ _ Hdk) by lia. cbn [bind].
      assert (Hb1 : (m * n * k + m * n <= m * n * dim)%nat) by nia.
      assert (Hcm : (k * m * n = m * n * k)%nat) by ring.
      assert (Hcm2 : (n * m * dim = m * n * dim)%nat) by ring.
      rewrite bwr_in by (rewrite HlT'; lia).
      eexists; split; [reflexivity|]. split; [exact HlT'|]. split.
      * intros k' h' a' Hk' Hh' Ha'; cbn.
        assert (Hb2 : (m * n * k' + m * n <= m * n * k)%nat) by nia.
        assert (Hb3 : (m * h' + a' < m * n)%nat) by nia.
        destruct (Nat.eqb_spec (m * n * k' + (m * h' + a')) (m * h + a + k * m * n)); [lia|]. apply HT'; assumption.
      * intros h' a' Hh' Ha' Hlt; cbn.
        destruct (Nat.eqb_spec (m * n * k + (m * h' + a')) (m * h + a + k * m * n)) as [He|He].
        -- assert (He2 : (m * h' + a' = m * h + a)%nat) by lia. apply idx_inj in He2 as [-> ->]; [|lia|lia]. reflexivity.
        -- apply HT''; lia.
    + rewrite Er. cbn [bind]. eexists; split; [reflexivity|]. cbn [fst snd].
      split; [apply Hdk|]. split; [exact HlT'|]. intros k' h a Hk' Hh Ha.
      destruct (Nat.eq_dec k' k) as [->|]; [apply HT''; [exact Hh|exact Ha|nia]|apply HT'; lia].
  - rewrite Er. cbn [bind snd]. exists Tb. split; [reflexivity|]. split; [exact HlT|exact HT].
Qed.

Lemma gcpp_nd_mult n nb Tb (t : nat -> nat -> nat -> T) bv v count out G :
  blen Tb = (n * m * dim)%nat -> gtab Tb n t ->
  is_vec bv v -> In v (vecs m dim) -> (count < nb)%nat -> bmat out n nb (fun j k => Some (G j k)) ->
  (forall j, G j count = 1) ->
  exists out', cpp_nd_mult A B n nb Tb bv count out = Some out' /\
    bmat out' n nb (fun j k => Some (if (k =? count)%nat then gprod dim (fun l => t l j (nth l v 0%nat)) else G j k)).
Proof.
  intros HTl HT Hv Hin Hc Hout HG. unfold cpp_nd_mult. rewrite gD, gM.
  pose proof (vecs_len _ _ _ Hin) as Hvl.
  set (P := fun j l => gprod l (fun l => t l j (nth l v 0%nat))).
  destruct (for_inv (fun h o => bmat o n nb (fun j k => Some (if (k =? count)%nat && (j <? h)%nat then P j dim else G j k)))
    (fun h out => for_ 0%nat dim (fun l out =>
    v <- brd bv l ;;
    t <- brd Tb (m * n * l + v + h * m)%nat ;;
    o <- brd out (h * nb + count)%nat ;;
    bwr out (h * nb + count)%nat (o * t)) out) 0%nat n out) as (o' & Er & Ho').
  - lia.
  - eapply bmat_ext; [exact Hout|]. intros j k _ _; cbv beta. rewrite andb_false_r. reflexivity.
  - intros h o Hh Ho.
    destruct (for_inv (fun l o => bmat o n nb (fun j k => Some
       (if (k =? count)%nat && (j <? h)%nat then P j dim else if (k =? count)%nat && (j =? h)%nat then P h l else G j k)))
     (fun l out =>
    v <- brd bv l ;;
    t <- brd Tb (m * n * l + v + h * m)%nat ;;
    o <- brd out (h * nb + count)%nat ;;
    bwr out (h * nb + count)%nat (o * t)) 0%nat dim o) as (o2 & E2 & Ho2).
    + lia.
    + eapply bmat_ext; [exact Ho|]. intros j k _ _; cbv beta.
      destruct (Nat.eqb_spec k count) as [->|]; cbn [andb]; [|reflexivity].
      destruct (Nat.ltb_spec j h); [reflexivity|]. destruct (Nat.eqb_spec j h) as [->|]; [|reflexivity].
      rewrite HG. reflexivity.
    + intros l o2 Hl Ho2. rewrite (is_vec_rd _ _ _ Hv) by lia. cbn [bind].
      pose proof (vecs_nth m dim v l ltac:(lia) Hin) as Ha.
      assert (Hcell : brd Tb (m * n * l + nth l v 0 + h * m)%nat = Some (t l h (nth l v 0%nat))).
      { assert (Hb1 : (m * n * l + m * n <= m * n * dim)%nat) by nia.
        assert (Hb3 : (m * h + nth l v 0 < m * n)%nat) by nia.
        assert (Hcm2 : (n * m * dim = m * n * dim)%nat) by ring.
        rewrite brd_in by lia. rewrite <- (HT l h (nth l v 0%nat)) by lia. f_equal. lia. }
      rewrite Hcell. cbn [bind].
      rewrite (Nat.mul_comm h nb). rewrite (bmat_rd _ _ _ _ h count Ho2) by lia. cbn [bind].
      rewrite Nat.eqb_refl, Nat.ltb_irrefl, Nat.eqb_refl. cbn [andb].
      destruct (bmat_wr _ _ _ _ h count (P h l * t l h (nth l v 0%nat)) Ho2) as (o3 & E3 & Ho3); [lia|lia|].
      exists o3. split; [exact E3|]. eapply bmat_ext; [exact Ho3|]. intros j k Hj Hk; cbv beta.
      destruct (Nat.eqb_spec j h) as [->|]; cbn [andb].
      * rewrite Nat.ltb_irrefl. destruct (Nat.eqb_spec k count); cbn [andb]; reflexivity.
      * rewrite !andb_false_r. reflexivity.
    + exists o2. split; [exact E2|]. eapply bmat_ext; [exact Ho2|]. intros j k Hj Hk; cbv beta.
      destruct (Nat.eqb_spec k count) as [->|]; cbn [andb]; [|reflexivity].
      destruct (Nat.eqb_spec j h) as [->|]; [rewrite Nat.ltb_irrefl; destruct (Nat.ltb_spec h (S h)); [reflexivity|lia]|].
      destruct (Nat.ltb_spec j h), (Nat.ltb_spec j (S h)); try lia; reflexivity.
  - exists o'. split; [exact Er|]. eapply bmat_ext; [exact Ho'|]. intros j k Hj Hk; cbv beta.
    destruct (Nat.eqb_spec k count) as [->|]; cbn [andb]; [|reflexivity].
    destruct (Nat.ltb_spec j n); [reflexivity|lia].
Qed.

Lemma gcpp_nHint (xb : buf T) n (X : nat -> nat -> T) d full F :
  (forall k j, (k < dim)%nat -> (j < n)%nat -> brd xb (Nat.add (Nat.mul k n) j) = Some (X k j)) ->
  let idx := idxs dim m nC full in
  blen F = (length idx * n)%nat ->
  exists F', cpp_nHint A E f B xb n d (length idx) F full = Some F' /\
    cols F' n (length idx) (length idx) (fun j i => gndterm (fun k => X k j) d (nth i idx [])).
Proof.
  intros Hx idx HF.
  destruct (gcpp_nd_z xb n X Hx) as (z & Ez & Hz).
  destruct (gcpp_nd_T z n _ d Hz) as (Tb & ET & HlT & HT).
  set (t := fun k h a => gndcol k (X k h) (nth k d 0%nat) a).
  change (gtab Tb n t) in HT.
  set (nb := length idx) in *.
  destruct (for_inv (fun k b' => blen b' = (nb * n)%nat /\ forall i, (i < k)%nat -> bcell b' i = Some 1)
     (fun k F => bwr F k 1) 0%nat (n * nb)%nat F) as (F1 & E1 & Hl1 & HF1).
  { lia. } { split; [exact HF|lia]. }
  { intros k b' Hk [Hl' H']. rewrite bwr_in by (rewrite Hl'; lia).
    eexists; split; [reflexivity|]. split; [exact Hl'|]. intros i Hi; cbn.
    destruct (Nat.eqb_spec i k); [reflexivity|apply H'; lia]. }
  assert (Hinit : bmat F1 n nb (fun j k => Some 1)).
  { split; [exact Hl1|]. intros j k Hj Hk. apply HF1. nia. }
  pose proof (g_flat _ _ _ _ _ _ _ HB) as Hflat.
  set (p := py_keep m nC full) in *.
  set (V := fun j v => gprod dim (fun l => t l j (nth l v 0%nat))).
  set (act := fun v (st : buf T * nat) => let (out, count) := st in
     if p v then out <- cpp_nd_mult A B n nb Tb (bof v) count out ;; Some (out, S count) else Some (out, count)).
  assert (Hfold : forall l c o, (forall v, In v l -> In v (vecs m dim)) ->
    (Nat.add c (length (filter p l)) <= nb)%nat ->
    forall G, (forall j k, (c <= k)%nat -> G j k = 1) -> bmat o n nb (fun j k => Some (G j k)) ->
    exists o', foldM act l (o, c) = Some (o', Nat.add c (length (filter p l))) /\
      bmat o' n nb (fun j k => Some (if (k <? c)%nat then G j k else
         match nth_error (filter p l) (Nat.sub k c) with Some v => V j v | None => 1 end))).
  { induction l as [|v l IH]; intros cc o Hin Hc G HG Ho; cbn [foldM filter].
    - exists o. cbn [length]. rewrite Nat.add_0_r. split; [reflexivity|].
      eapply bmat_ext; [exact Ho|]. intros j k _ _; cbv beta.
      destruct (Nat.ltb_spec k cc); [reflexivity|]. rewrite HG by lia. destruct (Nat.sub k cc); reflexivity.
    - cbn [filter] in Hc.
      assert (Eact : act v (o, cc) = if p v then out <- cpp_nd_mult A B n nb Tb (bof v) cc o ;; Some (out, S cc)
                                    else Some (o, cc)) by reflexivity.
      rewrite Eact. clear Eact. destruct (p v) eqn:Ep; cbn [bind].
      + cbn [length] in Hc.
        destruct (gcpp_nd_mult n nb Tb t (bof v) v cc o G HlT HT) as (o1 & Eo & Ho1).
        * split; reflexivity.
        * apply Hin; left; reflexivity.
        * lia.
        * exact Ho.
        * intros j. apply HG; lia.
        * rewrite Eo. cbn [bind].
          destruct (IH (S cc) o1 (fun v H => Hin v (or_intror H)) ltac:(lia)
             (fun j k => if (k =? cc)%nat then V j v else G j k)) as (o2 & E2 & Ho2).
          -- intros j k Hk. destruct (Nat.eqb_spec k cc); [lia|apply HG; lia].
          -- exact Ho1.
          -- exists o2. rewrite E2. cbn [length]. split; [do 2 f_equal; lia|].
             eapply bmat_ext; [exact Ho2|]. intros j k _ Hk; cbv beta. f_equal.
             destruct (Nat.ltb_spec k (S cc)), (Nat.ltb_spec k cc), (Nat.eqb_spec k cc) as [Ek|]; try lia; try reflexivity.
             ++ rewrite Ek, Nat.sub_diag. reflexivity.
             ++ replace (Nat.sub k cc) with (S (Nat.sub k (S cc))) by lia. reflexivity.
      + apply IH; auto. intros w Hw; apply Hin; right; exact Hw. }
  destruct (Hfold (vecs m dim) 0%nat F1 (fun v H => H)) with (G := fun (_ _ : nat) => 1) as (o' & Ef & Ho').
  { apply Nat.le_refl. } { reflexivity. } { exact Hinit. }
  unfold cpp_nHint.
  assert (Hrun : forall dim', dim = S dim' -> exists v', nrec m (fun vec (st : buf T * nat) =>
             let (out, count) := st in
             k <- cpp_keep dim m (nb_numC B) (nb_flat B) full vec ;;
             if (k : bool) then
               out <- cpp_nd_mult A B n nb Tb vec count out ;;
               Some (out, S count)
             else Some (out, count)) dim' (bnew dim) (F1, 0%nat) = Some (v', (o', Nat.add 0 (length (filter p (vecs m dim)))))).
  { intros dim' Edim. rewrite Edim in Ef |- *. apply (nrec_run m _ act dim' (bnew (S dim')) (F1, 0%nat)); [|reflexivity|exact Ef].
    intros b v [out cc] Hl Hv. rewrite <- Edim in Hl |- *.
    rewrite (cpp_keep_ok _ _ _ _ _ _ _ _ Hl Hv Hflat). cbn [bind]. unfold act. fold p.
    destruct (p v); [|reflexivity].
    assert (Em : cpp_nd_mult A B n nb Tb b cc out = cpp_nd_mult A B n nb Tb (bof v) cc out); [|rewrite Em; reflexivity].
    unfold cpp_nd_mult.
    assert (Hrd : forall l, brd b l = brd (bof v) l).
    { intros l. unfold brd. destruct Hv as [Hbl Hbc]. cbn [bof blen bcell]. rewrite Hbl.
      destruct (Nat.ltb_spec l (length v)); [apply Hbc; assumption|reflexivity]. }
    apply for_ext. intros h o3. apply for_ext. intros l o2. rewrite Hrd. reflexivity. }
  rewrite Ez. cbn [bind]. rewrite ET. cbn [bind]. rewrite E1. cbn [bind]. rewrite gM, gD.
  destruct dim as [|dim'] eqn:Edim; [lia|].
  destruct (Hrun dim' eq_refl) as (v' & Er).
  rewrite Er. cbn [bind fst snd]. exists o'. split; [reflexivity|]. destruct Ho' as [Hol Hoc].
  split; [exact Hol|]. intros j i Hj Hi. rewrite Hoc by assumption. cbn [Nat.ltb Nat.leb]. rewrite Nat.sub_0_r.
  change (filter p (vecs m (S dim'))) with idx. rewrite (nth_error_nth' idx [] Hi). unfold gndterm. rewrite Edim. reflexivity.
Qed.

Lemma gshaped_flat (x : mat T) n k j : shaped x dim n -> (k < dim)%nat -> (j < n)%nat ->
  brd (bof (concat (md x))) (Nat.add (Nat.mul k n) j) = Some (nth j (nth k (md x) []) 0).
Proof.
  intros Hx Hk Hj. destruct (shaped_ent x dim n k j 0 Hx Hk Hj) as (row & Er & Hl & He).
  destruct Hx as (_ & _ & Hxl & Hxr).
  rewrite brd_in; cbn [bof blen bcell].
  - rewrite (nth_error_concat _ n) by assumption. rewrite Er. exact He.
  - rewrite (concat_len _ n Hxr). nia.
Qed.

Lemma gcpp_nH x d full n : shaped x dim n -> cpp_nH A E f B x d full = Some (gndmat x d full).
Proof.
  intros Hx. unfold cpp_nH. rewrite (g_num _ _ _ _ _ _ _ HB full).
  pose proof Hx as (_ & Hn & _). rewrite Hn.
  set (idx := idxs dim m nC full).
  destruct (gcpp_nHint (bof (concat (md x))) n (fun k j => nth j (nth k (md x) []) 0) d full
     (bnew (length idx * n)%nat)) as (F & EF & HF).
  - intros k j Hk Hj. apply (gshaped_flat x n); assumption.
  - reflexivity.
  - fold idx in EF, HF. rewrite EF. cbn [bind].
    rewrite (buf_matrix_bmat F n _ _ (cols_bmat _ _ _ _ HF)). cbn [bind].
    unfold gndmat. fold idx. rewrite Hn. do 2 f_equal. apply map_ext. intros j.
    apply (map_seq_nth (gndterm (fun k => nth j (nth k (md x) []) 0) d) idx []).
Qed.
End Obj.

(** *** construction *)
Lemma ginit be f dim x0 xf nC m z0 zf : nd_dom A E f = Some (z0, zf) ->
  (1 <= dim)%nat -> length x0 = dim -> length xf = dim -> shaped nC dim (mc nC) ->
  exists B, nd_init A E be f x0 xf nC m = Some B /\ gnb dim m (md nC) x0 (nd_c A z0 zf x0 xf) z0 B.
Proof.
  intros Hdom Hd H0 Hxf (Hr & _ & Hl & Hrow). unfold nd_init. rewrite Hdom. cbn [bind fst snd].
  assert (Hcl : length (concat (md nC)) = (dim * mc nC)%nat) by (rewrite (concat_len _ _ Hrow), Hl; reflexivity).
  assert (Hlc : length (nd_c A z0 zf x0 xf) = dim) by (unfold nd_c; rewrite map_length, combine_length; lia).
  destruct be.
  - unfold py_nd_init. rewrite Hr, H0, Hxf, Nat.eqb_refl. cbn [andb].
    rewrite !py_num_ok by exact Hd. cbn [bind]. eexists; split; [reflexivity|].
    constructor; cbn; try reflexivity; try assumption.
    + split; [exact Hl|]. split; [exact Hrow|]. split; [exact Hcl|reflexivity].
    + intros []; reflexivity.
  - unfold cpp_nd_init. rewrite H0, Hcl, Hxf.
    destruct (Nat.leb_spec (dim * mc nC) (dim * mc nC)); [|lia]. rewrite Nat.leb_refl. cbn [andb].
    assert (HC : flat_ok (md nC) dim (mc nC) (Buf (dim * mc nC)%nat (nth_error (concat (md nC))))).
    { split; [exact Hl|]. split; [exact Hrow|]. split; reflexivity. }
    rewrite !(cpp_num_ok _ _ _ _ m _ Hd HC). cbn [bind]. eexists; split; [reflexivity|].
    constructor; cbn; try reflexivity; try assumption.
    + rewrite firstn_all2 by lia. reflexivity.
    + intros []; reflexivity.
Qed.
End Any.
